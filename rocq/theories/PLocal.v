(* Local convergence of the Gauss-Newton iterations. *)
From Coq Require Import List Arith Bool ZArith Lia Permutation Reals Lra Psatz.
From Verif Require Import Num NumR Py Arr MLayout MAssign MNoise MSparse MFactor MGraph MLinear MSolver SpecLayout SpecTree SpecAssign SpecGraph SpecSparse SpecDeriv SpecSolver SpecOrder SpecInv SpecLin SpecCgLin SpecDescent SpecLocal.
From Verif Require Import PBase PLayout PAssign PAssign2 PStack PGraph PGraph2 PGraph3 PGraph4 PVec PSparse PLinear PCg PCgConv PJac PGraph5 PLayout2 POrder PHold PExGraph PSolver PSolver2 PInv PTotal PSolverR PDescent PLin PLinDl PLinCg.
Import ListNotations.
Local Open Scope R_scope.

(* ---- one damped, possibly inexact, step ---- *)
Lemma scalar_bound m beta a b P W ne : 0 < m -> 0 <= beta -> 0 <= a -> 0 <= W -> m * a <= b -> W <= 2 * m * ne -> beta * ne <= P ->
  b * b + beta * (a * a) <= P * a + W * b -> (m * m + beta) * a <= P + m * W.
Proof.
  intros Hm Hb Ha HW Hab HWe HP H. destruct (Rle_lt_dec (W / 2) (m * a)) as [Hc|Hc].
  - assert (H1 : (m * a) * (m * a) - W * (m * a) <= b * b - W * b).
    { assert (0 <= (b - m * a) * (b + m * a - W)) by (apply Rmult_le_pos; lra). lra. }
    assert (H2 : a * ((m * m + beta) * a - (P + m * W)) <= 0) by lra.
    destruct Ha as [Ha|Ha]; [|subst a; assert (0 <= m * W) by (apply Rmult_le_pos; lra);
      assert (0 <= ne) by (apply (Rmult_le_reg_l (2 * m)); lra); assert (0 <= beta * ne) by (apply Rmult_le_pos; lra); lra].
    destruct (Rle_lt_dec ((m * m + beta) * a) (P + m * W)) as [|Hn]; auto. exfalso.
    assert (0 < a * ((m * m + beta) * a - (P + m * W))) by (apply Rmult_lt_0_compat; lra). lra.
  - assert (Hne : a <= ne) by (apply (Rmult_le_reg_l (2 * m)); lra).
    assert (beta * a <= beta * ne) by (apply Rmult_le_compat_l; lra).
    assert (m * (m * a) <= m * (W / 2)) by (apply Rmult_le_compat_l; lra). assert (0 <= m * W) by (apply Rmult_le_pos; lra). lra.
Qed.

Lemma norm_le_of (x : list R) B : 0 <= B -> sumsq x <= B * B -> vnorm x <= B.
Proof. intros HB H. destruct (vnorm_sq x) as (H0 & H1). rewrite <- H1 in H. nra. Qed.
Lemma norm_of_le (x : list R) B : 0 <= B -> vnorm x <= B -> sumsq x <= B * B.
Proof. intros HB H. destruct (vnorm_sq x) as (H0 & H1). rewrite <- H1. nra. Qed.

Lemma sub_sum (x y d : list R) : length x = length y -> length d = length x -> vsub y (vadd x d) = vsub (vsub y x) d.
Proof.
  revert y d. induction x as [|a x IH]; intros [|b y] [|c d] H1 H2; try discriminate; auto. rewrite vadd_cons, !vsub_cons.
  f_equal; [lra | apply IH; auto].
Qed.

Section Core.
Variable A : coo R.
Hypothesis HA : coo_ok A.
Let mm := fst (m_shape A).
Let n := snd (m_shape A).
Variables r rz e x sv : list R.
Variables beta m W SE : R.
Hypothesis Hr : length r = mm.
Hypothesis Hrz : length rz = mm.
Hypothesis He : length e = n.
Hypothesis Hx : length x = n.
Hypothesis Hs : length sv = n.
Hypothesis Hm : 0 < m.
Hypothesis Hlow : forall y, length y = n -> m * m * sumsq y <= sumsq (mapply A y).
Hypothesis HW : vnorm (vsub (vadd (mapply A e) r) rz) <= W.
Hypothesis HS : forall y, length y = n -> vdot (mapply A y) rz <= SE * vnorm y.

Lemma mapply_sub y z : length y = n -> length z = n -> mapply A (vsub y z) = vsub (mapply A y) (mapply A z).
Proof.
  intros Hy Hz. assert (Hyz : length (vsub y z) = n) by (rewrite vsub_length; congruence).
  assert (E1 : mapply A (vadd (vsub y z) z) = vadd (mapply A (vsub y z)) (mapply A z)) by (apply mapply_add; auto).
  assert (E2 : vadd (vsub y z) z = y).
  { assert (H : length y = length z) by congruence. revert H. clear. revert z. induction y as [|a y IH]; intros [|b z] H; try discriminate; auto.
    rewrite vsub_cons, vadd_cons. f_equal; [lra | apply IH; auto]. }
  rewrite E2 in E1. rewrite E1. assert (H : length (mapply A (vsub y z)) = length (mapply A z)) by (rewrite !mapply_length; auto).
  revert H. generalize (mapply A (vsub y z)) (mapply A z). clear. induction l as [|a y IH]; intros [|b z] H; try discriminate; auto.
  rewrite vadd_cons, vsub_cons. f_equal; [lra | apply IH; auto].
Qed.

Lemma core_step : 0 <= beta -> 0 <= SE -> 0 <= W -> W <= 2 * m * vnorm e ->
  (forall y, length y = n -> vdot (mapply A y) (mapply A x) + beta * vdot y x = - vdot (mapply A y) r + vdot y sv) ->
  (m * m + beta) * vnorm (vsub e x) <= beta * vnorm e + SE + vnorm sv + m * W.
Proof.
  intros Hb HS0 HW0 HWe Hn. set (u := vsub e x). assert (Hu : length u = n) by (unfold u; rewrite vsub_length; congruence).
  set (w := vsub (vadd (mapply A e) r) rz) in *. assert (LA : forall y, length (mapply A y) = mm) by (intros; apply mapply_length).
  assert (Hw : length w = mm) by (unfold w; rewrite vsub_length; rewrite vadd_length; rewrite ?LA; congruence).
  destruct (vnorm_sq u) as (U0 & U1). destruct (vnorm_sq (mapply A u)) as (V0 & V1). destruct (vnorm_sq e) as (E0 & _). destruct (vnorm_sq sv) as (S0 & _).
  assert (HAu : mapply A u = vsub (mapply A e) (mapply A x)) by (apply mapply_sub; auto).
  assert (Heq : vdot (mapply A u) (mapply A u) + beta * vdot u u = vdot (mapply A u) w + vdot (mapply A u) rz + beta * vdot u e - vdot u sv).
  { pose proof (Hn u Hu) as H. unfold w. rewrite vdot_sub_r by (rewrite vadd_length; rewrite ?LA; congruence). rewrite vdot_add_r by (rewrite LA; congruence).
    assert (H1 : vdot (mapply A u) (mapply A u) = vdot (mapply A u) (mapply A e) - vdot (mapply A u) (mapply A x)) by (rewrite HAu at 2; apply vdot_sub_r; rewrite !LA; auto).
    assert (H2 : vdot u u = vdot u e - vdot u x) by (unfold u at 2; apply vdot_sub_r; congruence). rewrite H1, H2. lra. }
  pose proof (dot_le_norms (mapply A u) w ltac:(rewrite LA; congruence)) as D1. pose proof (HS u Hu) as D2.
  pose proof (dot_le_norms u e ltac:(congruence)) as D3. pose proof (dot_le_norms u (vneg sv) ltac:(unfold vneg; rewrite map_length; congruence)) as D4.
  rewrite vdot_neg_r in D4. assert (Hns : vnorm (vneg sv) = vnorm sv).
  { apply vnorm_eq; auto. rewrite sumsq_neg. symmetry. apply vnorm_sq. }
  rewrite Hns in D4. rewrite <- !sumsq_dot, <- U1, <- V1 in Heq.
  apply (scalar_bound m beta (vnorm u) (vnorm (mapply A u)) (beta * vnorm e + SE + vnorm sv) W (vnorm e)); auto; try lra.
  - pose proof (Hlow u Hu) as H. rewrite <- U1, <- V1 in H. assert (0 <= m * vnorm u) by (apply Rmult_le_pos; lra). nra.
  - assert (beta * vdot u e <= beta * (vnorm u * vnorm e)) by (apply Rmult_le_compat_l; lra).
    assert (vnorm (mapply A u) * vnorm w <= vnorm (mapply A u) * W) by (apply Rmult_le_compat_l; lra). lra.
Qed.

(* the size of the gradient near the solution *)
Lemma core_gradient f : 0 <= f -> 0 <= SE -> 0 <= W -> (forall y, length y = n -> sumsq (mapply A y) <= f * f * sumsq y) ->
  vnorm (mapply (transpose A) r) <= f * W + f * f * vnorm e + SE.
Proof.
  intros Hf HS0 HW0 Hup. set (y := mapply (transpose A) r). assert (Hy : length y = n) by apply mapply_length.
  assert (LA : forall y, length (mapply A y) = mm) by (intros; apply mapply_length).
  set (w := vsub (vadd (mapply A e) r) rz) in *. assert (Hw : length w = mm) by (unfold w; rewrite vsub_length; rewrite vadd_length; rewrite ?LA; congruence).
  assert (Hn : forall v, length v = n -> vnorm (mapply A v) <= f * vnorm v).
  { intros v Hv. destruct (vnorm_sq v) as (V0 & V1). apply norm_le_of; [apply Rmult_le_pos; auto|]. pose proof (Hup v Hv) as H. rewrite <- V1 in H. lra. }
  assert (Heq : sumsq y = vdot (mapply A y) w - vdot (mapply A y) (mapply A e) + vdot (mapply A y) rz).
  { unfold w. rewrite vdot_sub_r by (rewrite vadd_length; rewrite ?LA; congruence). rewrite vdot_add_r by (rewrite LA; congruence).
    rewrite sumsq_dot. unfold y at 2. rewrite <- mapply_adjoint by auto. lra. }
  destruct (vnorm_sq y) as (Y0 & Y1). destruct (vnorm_sq e) as (E0 & _).
  pose proof (dot_le_norms (mapply A y) w ltac:(rewrite LA; congruence)) as D1. pose proof (HS y Hy) as D2.
  assert (D3 : - vdot (mapply A y) (mapply A e) <= vnorm (mapply A y) * vnorm (mapply A e)).
  { rewrite <- vdot_neg_r. pose proof (dot_le_norms (mapply A y) (vneg (mapply A e)) ltac:(unfold vneg; rewrite map_length, !LA; auto)) as H.
    assert (Hns : vnorm (vneg (mapply A e)) = vnorm (mapply A e)) by (apply vnorm_eq; [apply vnorm_sq | rewrite sumsq_neg; symmetry; apply vnorm_sq]). rewrite Hns in H. auto. }
  destruct (vnorm_sq (mapply A y)) as (AY0 & _). destruct (vnorm_sq (mapply A e)) as (AE0 & _). destruct (vnorm_sq w) as (W0 & _).
  pose proof (Hn y Hy) as N1. pose proof (Hn e He) as N2.
  assert (B1 : vnorm (mapply A y) * vnorm w <= f * vnorm y * W) by (apply Rmult_le_compat; auto).
  assert (B2 : vnorm (mapply A y) * vnorm (mapply A e) <= f * vnorm y * (f * vnorm e)) by (apply Rmult_le_compat; auto).
  assert (Hfin : vnorm y * vnorm y <= vnorm y * (f * W + f * f * vnorm e + SE)) by lra.
  assert (Hp : 0 <= f * W + f * f * vnorm e + SE).
  { assert (0 <= f * W) by (apply Rmult_le_pos; auto). assert (0 <= f * f * vnorm e) by (apply Rmult_le_pos; auto; apply Rmult_le_pos; auto). lra. }
  destruct Y0 as [Y0|Y0]; [|rewrite <- Y0; auto]. apply (Rmult_le_reg_l (vnorm y)); auto.
Qed.
End Core.

Lemma low_columns (A : coo R) m : coo_ok A -> 0 < m -> (forall y, length y = snd (m_shape A) -> m * m * sumsq y <= sumsq (mapply A y)) -> no_zero_column A.
Proof.
  intros HA Hm Hlow j Hj. set (u := unitv (snd (m_shape A)) j). assert (Hu : length u = snd (m_shape A)) by apply unitv_length.
  assert (Hdec : (exists r v, In (r, j, v) (triples A) /\ v <> 0) \/ forall t, In t (triples A) -> snd (fst t) = j -> snd t = 0).
  { generalize (triples A). induction l as [|[[r c] v] l IH]; [right; intros t []|]. destruct IH as [(r' & v' & H1 & H2)|IH]; [left; exists r', v'; split; auto; right; auto|].
    destruct (Nat.eq_dec c j) as [->|Hc]; [destruct (Req_dec v 0) as [Hv|Hv]|].
    - right. intros t [<-|Ht] Ht'; auto.
    - left. exists r, v. split; auto. left. auto.
    - right. intros t [<-|Ht] Ht'; auto. contradiction. }
  destruct Hdec as [H|H]; auto. exfalso.
  assert (Hz : sumsq (mapply A u) = 0).
  { rewrite sumsq_dot. rewrite mapply_dot by (rewrite ?mapply_length; auto). unfold bil. rewrite (vsum_map_ext _ (fun _ => 0)).
    - generalize (triples A). induction l as [|t l IH]; [reflexivity|]. cbn [map]. rewrite vsum_cons, IH. lra.
    - intros t Ht. destruct t as [[r c] v]. cbn [fst snd]. destruct (triples_in A r c v HA Ht) as (_ & Hc). unfold u at 2. rewrite nth_unitv by auto.
      destruct (Nat.eqb c j) eqn:Ecj; [|lra]. apply Nat.eqb_eq in Ecj. pose proof (H _ Ht Ecj) as Hv. cbn in Hv. rewrite Hv. lra. }
  assert (Hn : sumsq u = 1). { rewrite sumsq_dot. unfold u at 1. rewrite vdot_unitv by auto. unfold u. rewrite nth_unitv by auto. rewrite Nat.eqb_refl. auto. }
  pose proof (Hlow u Hu) as Hle. rewrite Hz, Hn in Hle. assert (0 < m * m) by (apply Rmult_lt_0_compat; auto). lra.
Qed.

(* ---- the iterations ---- *)
Section Local.
Variable E : env R.
Let C := e_cls E.
Variable fs : list (factor R).
Variable g : graph R.
Hypothesis HP : plain_problem E fs.
Hypothesis CO : classes_ok C.
Hypothesis Hok : forall f, In f fs -> factor_ok f.
Hypothesis Hg : is_graph E fs g.
Hypothesis Hne : fs <> [].
Hypothesis Hrd : total residual_dim fs <> 0%nat.
Hypothesis Hws : well_shaped E fs.
Let L := graph_layout E fs true.
Let n := l_dim L.
Let mm := total residual_dim fs.
Notation fresh := (fresh E fs g).

Variables (z : assign R) (valz : var -> pytree R) (cz : R) (rz : list R) (rho m K S : R).
Hypothesis Hz : holds E fs z valz.
Hypothesis Ez : compute_cost E g z = Ok (cz, rz).
Hypothesis Hm : 0 < m.
Hypothesis HK : 0 <= K.
Hypothesis HS : 0 <= S.
Hypothesis Hrho : S + K * m * rho < m * m.
Hypothesis Hreg : regular_near E fs g z rz rho m K S.

Definition err (a : assign R) : list R := vsub (as_storage z) (as_storage a).
Definition dist (a : assign R) : R := vnorm (err a).
Lemma dist_pos a : 0 <= dist a.
Proof. apply vnorm_sq. Qed.
Lemma err_length a val : holds E fs a val -> length (err a) = n.
Proof.
  intros Ha. pose proof (pl_held_length E fs HP CO _ _ Ha : _ = n). pose proof (pl_held_length E fs HP CO _ _ Hz : _ = n).
  unfold err. rewrite vsub_length; congruence.
Qed.
Lemma small_curvature d : 0 <= d -> d <= rho -> K * (d * d) <= 2 * m * d.
Proof.
  intros Hd Hr. assert (K * m * d <= K * m * rho) by (apply Rmult_le_compat_l; auto; apply Rmult_le_pos; lra).
  assert (m * (K * d) <= m * m) by lra. assert (K * d <= m) by (apply (Rmult_le_reg_l m); auto).
  assert (d * (K * d) <= d * m) by (apply Rmult_le_compat_l; auto). assert (0 <= d * m) by (apply Rmult_le_pos; lra). lra.
Qed.

Lemma near_facts s A : fresh s -> compute_whitened_residual_jacobian E g (s_assign s) (s_res s) = Ok A -> dist (s_assign s) <= rho ->
  coo_ok A /\ m_shape A = (mm, n) /\ length (s_res s) = mm /\ length rz = mm /\ length (err (s_assign s)) = n /\
  (forall y, length y = n -> m * m * sumsq y <= sumsq (mapply A y)) /\
  vnorm (vsub (vadd (mapply A (err (s_assign s))) (s_res s)) rz) <= K * (dist (s_assign s) * dist (s_assign s)) /\
  (forall y, length y = n -> vdot (mapply A y) rz <= S * dist (s_assign s) * vnorm y).
Proof.
  intros (Hcur & val & Ha) EA Hd.
  assert (Hlen : forall a val c r, holds E fs a val -> compute_cost E g a = Ok (c, r) -> length r = mm).
  { intros a v c r Hh Ec. destruct (cost_total E CO fs g Hok Hg Hne Hws a (ex_intro _ v Hh)) as (c0 & r0 & E0 & L0). rewrite Ec in E0. injection E0 as <- <-. auto. }
  pose proof (Hlen _ _ _ _ Ha Hcur) as Hr. pose proof (Hlen _ _ _ _ Hz Ez) as Hrz. pose proof (err_length _ _ Ha) as He.
  destruct (jacobian_total E CO fs g Hok Hg Hrd Hws s) as (A' & EA' & HA & Hsh); [split; [exists val; auto | auto]|].
  rewrite EA in EA'. injection EA' as <-. change (m_shape A = (mm, n)) in Hsh.
  assert (Hsl : same_layout (as_layout (s_assign s)) (g_layout g)) by (rewrite (ig_layout _ _ _ Hg); destruct Ha as (vs & _ & H & _); auto).
  destruct (Hreg (s_assign s) val _ _ A (holds_assigns E fs _ _ Ha) Hsl Hcur EA Hd) as (H1 & H2 & H3).
  do 5 (split; auto). split; [|split].
  - intros y Hy. apply H1; [rewrite Hsh; auto | apply matmul_mapply; auto; rewrite Hsh; auto].
  - apply H2. apply matmul_mapply; auto. rewrite Hsh. auto.
  - intros y Hy. apply H3. apply matmul_mapply; auto. rewrite Hsh. auto.
Qed.

(* moving by any vector *)
Lemma move s x : fresh s -> length x = n -> exists a' c' r' val',
  manifold_retract C (s_assign s) (mkAssign x L) = Ok a' /\ compute_cost E g a' = Ok (c', r') /\ holds E fs a' val' /\ err a' = vsub (err (s_assign s)) x.
Proof.
  intros (Hcur & val & Ha) Hx. destruct (pl_retract E fs HP CO Hws (s_assign s) val x Ha Hx) as (a' & val' & Er & Ha' & Hst).
  destruct (cost_total E CO fs g Hok Hg Hne Hws a' (ex_intro _ val' Ha')) as (c' & r' & Ec' & _).
  exists a', c', r', val'. do 3 (split; auto). unfold err. rewrite Hst. 
  pose proof (pl_held_length E fs HP CO _ _ Ha : _ = n). pose proof (pl_held_length E fs HP CO _ _ Hz : _ = n). apply sub_sum; congruence.
Qed.

(* a step that solves the damped normal equations up to sv *)
Lemma near_step s A x beta sv : fresh s -> compute_whitened_residual_jacobian E g (s_assign s) (s_res s) = Ok A -> dist (s_assign s) <= rho ->
  0 <= beta -> length x = n -> length sv = n ->
  (forall y, length y = n -> vdot (mapply A y) (mapply A x) + beta * vdot y x = - vdot (mapply A y) (s_res s) + vdot y sv) ->
  exists a' c' r' val', manifold_retract C (s_assign s) (mkAssign x (g_local_layout g)) = Ok a' /\ compute_cost E g a' = Ok (c', r') /\ holds E fs a' val' /\
    (m * m + beta) * dist a' <= (beta + S + K * m * dist (s_assign s)) * dist (s_assign s) + vnorm sv.
Proof.
  intros Hf EA Hd Hb Hx Hs Hn. destruct (near_facts s A Hf EA Hd) as (HA & Hsh & Hr & Hrz & He & Hlow & HW & HSv).
  destruct (move s x Hf Hx) as (a' & c' & r' & val' & Er & Ec & Hh & Herr). rewrite (ig_local _ _ _ Hg). exists a', c', r', val'. do 3 (split; auto).
  pose proof (dist_pos (s_assign s)) as D0. unfold dist at 1. rewrite Herr.
  assert (E1 : n = snd (m_shape A)) by (rewrite Hsh; auto). assert (E2 : mm = fst (m_shape A)) by (rewrite Hsh; auto). rewrite E1 in *. rewrite E2 in *.
  pose proof (core_step A HA (s_res s) rz (err (s_assign s)) x sv beta m _ _ Hr Hrz He Hx Hs Hm Hlow HW HSv Hb) as H.
  fold (dist (s_assign s)) in H. set (d := dist (s_assign s)) in *.
  assert (0 <= S * d) by (apply Rmult_le_pos; auto). assert (0 <= K * (d * d)) by (apply Rmult_le_pos; auto; apply Rmult_le_pos; auto).
  specialize (H H0 H1 (small_curvature d D0 Hd) Hn). lra.
Qed.

(* CHOLMOD *)
Lemma cholmod_near s A ATb lambd x : fresh s -> compute_whitened_residual_jacobian E g (s_assign s) (s_res s) = Ok A -> dist (s_assign s) <= rho ->
  0 <= lambd -> length ATb = n -> (forall y, length y = n -> vdot y ATb = - vdot (mapply A y) (s_res s)) -> cholmod_solve A ATb lambd (s_iter s) = Ok x ->
  exists a' c' r' val', manifold_retract C (s_assign s) (mkAssign x (g_local_layout g)) = Ok a' /\ compute_cost E g a' = Ok (c', r') /\ holds E fs a' val' /\
    (m * m + (lambd + 1 / 100000)) * dist a' <= (lambd + 1 / 100000 + S + K * m * dist (s_assign s)) * dist (s_assign s).
Proof.
  intros Hf EA Hd Hl Hb Hdot Ex. destruct (near_facts s A Hf EA Hd) as (HA & Hsh & Hr & Hrz & He & _).
  assert (E1 : n = snd (m_shape A)) by (rewrite Hsh; auto).
  destruct (cholmod_solve_ok A ATb lambd (s_iter s) HA) as (x' & Ex' & Hn); [unfold Rlit; lra | congruence|]. rewrite Ex in Ex'. injection Ex' as <-.
  pose proof (proj1 Hn : length x = snd (m_shape A)) as Hx. rewrite <- E1 in Hx.
  destruct (near_step s A x (lambd + 1 / 100000) (vzero n) Hf EA Hd) as (a' & c' & r' & val' & H1 & H2 & H3 & H4); auto; [lra | apply vzero_length | |].
  - intros y Hy. rewrite vdot_zero_r. rewrite <- Hdot by auto. replace (lambd + 1 / 100000) with (lambd + Rlit 1 100000) by (unfold Rlit; lra).
    rewrite Rplus_0_r. rewrite E1 in *. apply (normal_weak A _ HA); auto.
  - exists a', c', r', val'. do 3 (split; auto). rewrite (vnorm_eq (vzero n) 0) in H4; [lra | lra|]. rewrite sumsq_dot, vdot_zero_r. ring.
Qed.

(* conjugate gradients *)
Lemma cg_near s A tol x ATr f : fresh s -> compute_whitened_residual_jacobian E g (s_assign s) (s_res s) = Ok A -> dist (s_assign s) <= rho -> 0 <= f ->
  (forall y, length y = n -> sumsq (mapply A y) <= f * f * sumsq y) ->
  matmul (transpose A) (s_res s) = Ok ATr -> cg_solve tol A (vneg ATr) 0 (s_iter s) = Ok x ->
  exists a' c' r' val', manifold_retract C (s_assign s) (mkAssign x (g_local_layout g)) = Ok a' /\ compute_cost E g a' = Ok (c', r') /\ holds E fs a' val' /\
    m * m * dist a' <= (S + K * m * dist (s_assign s) + Rabs (tol (s_iter s)) * (f * f + f * K * dist (s_assign s) + S)) * dist (s_assign s).
Proof.
  intros Hf EA Hd Hf0 Hup ET Ex. destruct (near_facts s A Hf EA Hd) as (HA & Hsh & Hr & Hrz & He & Hlow & HW & HSv).
  assert (E1 : n = snd (m_shape A)) by (rewrite Hsh; auto). assert (E2 : mm = fst (m_shape A)) by (rewrite Hsh; auto). rewrite E1 in *. rewrite E2 in *.
  rewrite matmul_mapply in ET by (auto using transpose_ok). injection ET as <-.
  assert (Hn : length (vneg (s_res s)) = fst (m_shape A)) by (unfold vneg; rewrite map_length; auto).
  rewrite neg_gradient in Ex by auto.
  destruct (cg_descent A (vneg (s_res s)) 0 (s_iter s) tol HA ltac:(lra) Hn (low_columns A m HA Hm Hlow)) as (x' & Ex' & Hx & Hres & _).
  rewrite Ex in Ex'. injection Ex' as <-. set (c := mapply (transpose A) (vneg (s_res s))) in *. assert (Hc : length c = snd (m_shape A)) by apply mapply_length.
  set (sv := vneg (vsub c (cg_op A 0 x))). pose proof (cg_op_length A 0 x Hx) as Hop.
  assert (Hs : length sv = snd (m_shape A)) by (unfold sv, vneg; rewrite map_length, vsub_length; congruence).
  rewrite <- E1 in *. destruct (near_step s A x 0 sv Hf EA Hd (Rle_refl 0) Hx Hs) as (a' & c' & r' & val' & H1 & H2 & H3 & H4).
  - intros y Hy. unfold sv. rewrite vdot_neg_r, vdot_sub_r by congruence. rewrite cg_form by (auto; congruence). unfold c. rewrite <- mapply_adjoint by (auto; congruence). rewrite vdot_neg_r. lra.
  - exists a', c', r', val'. do 3 (split; auto). set (d := dist (s_assign s)) in *. pose proof (dist_pos (s_assign s)) as D0. fold d in D0.
    pose proof (core_gradient A HA (s_res s) rz (err (s_assign s)) (K * (d * d)) (S * d)) as Hgr. rewrite <- E1, <- E2 in Hgr.
    assert (Hg1 : vnorm (mapply (transpose A) (s_res s)) <= f * (K * (d * d)) + f * f * d + S * d).
    { apply Hgr; auto; [rewrite E2; auto | rewrite E2; auto | apply Rmult_le_pos; auto | apply Rmult_le_pos; auto; apply Rmult_le_pos; auto]. }
    assert (Hnc : sumsq c = vnorm (mapply (transpose A) (s_res s)) * vnorm (mapply (transpose A) (s_res s))).
    { unfold c. rewrite <- neg_gradient by auto. rewrite sumsq_neg. symmetry. apply vnorm_sq. }
    destruct (vnorm_sq (mapply (transpose A) (s_res s))) as (G0 & _). set (gn := vnorm (mapply (transpose A) (s_res s))) in *.
    pose proof (Rabs_pos (tol (s_iter s))) as T0. set (t := Rabs (tol (s_iter s))) in *.
    assert (Hsv : vnorm sv <= t * gn).
    { apply norm_le_of; [apply Rmult_le_pos; auto|]. unfold sv. rewrite sumsq_neg. eapply Rle_trans; [exact Hres|]. rewrite Hnc.
      assert (Htt : tol (s_iter s) * tol (s_iter s) = t * t) by (unfold t; rewrite <- Rabs_mult; symmetry; apply Rabs_pos_eq, Rle_0_sqr). rewrite Htt. lra. }
    assert (t * gn <= t * (f * (K * (d * d)) + f * f * d + S * d)) by (apply Rmult_le_compat_l; auto). lra.
Qed.

(* one iteration of either Gauss-Newton solver *)
Definition went (lin : linear_solver (T := R)) (s s' : sstate R) : Prop := exists b d, gn_update E lin g s = Ok (b, d, s_assign s') /\
  compute_cost E g (s_assign s') = Ok (s_cost s', s_res s') /\ s_iter s' = Datatypes.S (s_iter s).
Lemma gn_went lin cfg s s' : gn_step E cfg lin g s = Ok s' -> went lin s s'.
Proof.
  intros H. unfold gn_step in H. apply bind_ok in H. destruct H as (((b & d) & a') & Eu & H). apply bind_ok in H. destruct H as ((c & r) & Ec & H).
  apply bind_ok in H. destruct H as (conv & _ & H). injection H as <-. exists b, d. cbn. rewrite Nat.add_1_r. auto.
Qed.
Lemma fixed_went lin it s s' : fixed_step E it lin g s = Ok s' -> went lin s s'.
Proof.
  intros H. unfold fixed_step in H. apply bind_ok in H. destruct H as (((b & d) & a') & Eu & H). apply bind_ok in H. destruct H as ((c & r) & Ec & H).
  injection H as <-. exists b, d. cbn. rewrite Nat.add_1_r. auto.
Qed.
Lemma went_cholmod s s' : fresh s -> dist (s_assign s) <= rho -> went cholmod_solve s s' ->
  fresh s' /\ (m * m + 1 / 100000) * dist (s_assign s') <= (1 / 100000 + S + K * m * dist (s_assign s)) * dist (s_assign s).
Proof.
  intros Hf Hd (b & d & Hu & Ec & _). unfold gn_update in Hu. apply bind_ok in Hu. destruct Hu as (A & EA & Hu). apply bind_ok in Hu. destruct Hu as (ATr & ET & Hu).
  apply bind_ok in Hu. destruct Hu as (x & Ex & Hu). apply bind_ok in Hu. destruct Hu as (a1 & Er & Hu). injection Hu as _ _ Ea. subst a1.
  destruct (near_facts s A Hf EA Hd) as (HA & Hsh & Hr & _). destruct (gn_rhs E fs A (s_res s) ATr HA Hsh Hr ET) as (Hl & Hdot).
  destruct (cholmod_near s A (vneg ATr) 0 x Hf EA Hd) as (a' & c' & r' & val' & H1 & H2 & H3 & H4); auto; [lra | unfold vneg; rewrite map_length; auto|].
  unfold C in H1. rewrite Er in H1. injection H1 as <-. split; [split; [exact Ec | eauto]|]. rewrite !Rplus_0_l in H4. auto.
Qed.
Lemma went_cg tol f s s' : 0 <= f -> bounded_near E fs g z rho f -> fresh s -> dist (s_assign s) <= rho -> went (cg_solve tol) s s' ->
  fresh s' /\ m * m * dist (s_assign s') <= (S + K * m * dist (s_assign s) + Rabs (tol (s_iter s)) * (f * f + f * K * dist (s_assign s) + S)) * dist (s_assign s).
Proof.
  intros Hf0 Hbd Hf Hd (b & d & Hu & Ec & _). unfold gn_update in Hu. apply bind_ok in Hu. destruct Hu as (A & EA & Hu). apply bind_ok in Hu. destruct Hu as (ATr & ET & Hu).
  apply bind_ok in Hu. destruct Hu as (x & Ex & Hu). apply bind_ok in Hu. destruct Hu as (a1 & Er & Hu). injection Hu as _ _ Ea. subst a1.
  destruct (near_facts s A Hf EA Hd) as (HA & Hsh & _).
  assert (Hup : forall y, length y = n -> sumsq (mapply A y) <= f * f * sumsq y).
  { intros y Hy. destruct Hf as (Hcur & val & Ha). apply (Hbd (s_assign s) val (s_cost s) (s_res s) A); auto; [apply holds_assigns; auto | | apply matmul_mapply; auto; rewrite Hsh; auto].
    rewrite (ig_layout _ _ _ Hg). destruct Ha as (vs & _ & H & _). auto. }
  destruct (cg_near s A tol x ATr f Hf EA Hd Hf0 Hup ET Ex) as (a' & c' & r' & val' & H1 & H2 & H3 & H4).
  unfold C in H1. rewrite Er in H1. injection H1 as <-. split; [split; [exact Ec | eauto]|]. auto.
Qed.
Lemma contract_chain (step : sstate R -> result (sstate R)) q : 0 <= q <= 1 ->
  (forall s s', fresh s -> dist (s_assign s) <= rho -> step s = Ok s' -> fresh s' /\ dist (s_assign s') <= q * dist (s_assign s)) ->
  forall k s s', fresh s -> dist (s_assign s) <= rho -> iterate k step s = Ok s' -> fresh s' /\ dist (s_assign s') <= q ^ k * dist (s_assign s).
Proof.
  intros Hq Hst. induction k as [|k IH]; intros s s' Hf Hd H; cbn [iterate pow] in *; [injection H as <-; split; auto; lra|].
  apply bind_ok in H. destruct H as (s1 & H1 & H2). destruct (Hst s s1 Hf Hd H1) as (Hf1 & Hd1). pose proof (dist_pos (s_assign s)) as D0.
  destruct (IH s1 s' Hf1) as (Hf' & Hd'); auto; [nra|]. split; auto. assert (0 <= q ^ k) by (apply pow_le; lra).
  assert (q ^ k * dist (s_assign s1) <= q ^ k * (q * dist (s_assign s))) by (apply Rmult_le_compat_l; auto). lra.
Qed.
Lemma ratio a b c d d' : 0 < b -> 0 <= d -> b * d' <= (a + c * d) * d -> 0 <= c -> d <= rho -> d' <= (a + c * rho) / b * d.
Proof.
  intros Hb Hd H Hc Hr. apply (Rmult_le_reg_l b); auto. replace (b * ((a + c * rho) / b * d)) with ((a + c * rho) * d) by (field; lra).
  assert ((a + c * d) * d <= (a + c * rho) * d) by (apply Rmult_le_compat_r; auto; assert (c * d <= c * rho) by (apply Rmult_le_compat_l; auto); lra). lra.
Qed.

(* an accepted Levenberg-Marquardt step *)
Lemma lm_near cfg s s' A d prop c r q : 0 < lm_quality_min cfg -> 0 <= s_extra s -> fresh s -> dist (s_assign s) <= rho -> lm_step E cfg cholmod_solve g s = Ok s' ->
  trust_step E g (lm_quality_min cfg) s s' A d prop c r q -> lm_quality_min cfg <= q ->
  fresh s' /\ s_extra s' = s_extra s / lambda_factor cfg /\
  (m * m + (s_extra s + 1 / 100000)) * dist (s_assign s') <= (s_extra s + 1 / 100000 + S + K * m * dist (s_assign s)) * dist (s_assign s).
Proof.
  intros Hq He Hf Hd H Ht Hle. destruct (lm_tr E _ _ _ _ _ H) as (A1 & ATb & d1 & prop1 & c1 & r1 & q1 & Ht1 & ET & Ex & Ee & _).
  destruct (really_accepted E g _ _ _ _ _ _ _ _ _ _ _ _ _ _ _ Hq Ht Hle Ht1) as (-> & Hle1). rnin Ee. rewrite (proj2 (Rleb_ok _ _) Hle1) in Ee. cbn in Ee.
  destruct Ht1 as [EA Ep Ec _ Hacc _ Hres _]. destruct (Hacc (proj2 (Rleb_ok _ _) Hle1)) as (Ea' & Ec'). 
  destruct (near_facts s A Hf EA Hd) as (HA & Hsh & Hr & _). destruct (lm_rhs E fs A (s_res s) ATb HA Hsh Hr ET) as (Hl & Hdot).
  destruct (cholmod_near s A ATb (s_extra s) d1 Hf EA Hd) as (a' & c' & r' & val' & H1 & H2 & H3 & H4); auto.
  unfold C in H1. rewrite Ep in H1. injection H1 as <-. rewrite Ea'. split; [split; [unfold current; rewrite Ea', Ec', Hres; auto | exists val'; rewrite Ea'; auto]|]. auto.
Qed.
End Local.
