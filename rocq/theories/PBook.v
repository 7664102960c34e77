(* The solvers with CholmodSolver carry out the iterations of SpecBook. *)
From Coq Require Import List Arith Bool Lia Permutation Reals Lra ZArith.
From Verif Require Import Num NumR Py Arr MLayout MAssign MNoise MSparse MFactor MGraph MLinear MSolver SpecLayout SpecTree SpecAssign SpecGraph SpecSparse SpecNoise SpecDeriv SpecOrder SpecInv SpecSolver SpecTwin SpecBook.
From Verif Require Import PBase PLayout PTree PAssign PAssign2 PAssign3 PStack PGraph PGraph2 PJac PVec PSparse PLinear PCg PGraph3 PGraph4 PGraph5 PHold POrder POrder2 PSolver PSolver2 PSolverR PDescent PTotal PInv PTwin PExGraph PExInv PLinCg PExLinDl.
Import ListNotations.
Local Open Scope R_scope.

Section Book.
Variable E : env R.
Let C := e_cls E.
Variable fs : list (factor R).
Variable g : graph R.
Hypothesis WP : well_posed E fs.
Hypothesis Eg : graph_make E fs = Ok g.
Let L := graph_layout E fs true.
Let n := l_dim L.
Let mm := total residual_dim fs.
Let ND : NoDup (mentioned fs) := mentioned_nodup fs.

Lemma bk_parts : classes_ok C /\ (forall f, In f fs -> factor_ok f) /\ well_shaped E fs /\ is_graph E fs g /\ fs <> [] /\ mm <> 0%nat.
Proof.
  pose proof WP as [CO Hok Hws _ _]. destruct (made E fs g Hok Eg) as (Hg & _). destruct (posed_graph E fs WP) as (Hne & _ & Hrd & _). split; [auto|]. split; [auto|]. split; [auto|]. split; [auto|]. split; auto.
Qed.

(* ---- tangent vectors per variable and stacked ---- *)
Lemma model_ext val old xi eta : agree fs xi eta -> model E fs val old xi = model E fs val old eta.
Proof.
  intros H. unfold model. apply vsum_map_ext. intros f Hf. unfold model_at. destruct (whitened_at E old f) as [w|]; auto. destruct (whitened_jacobians_at E val f w) as [Js|]; auto.
  do 2 f_equal. unfold pushed. f_equal. assert (Hv : forall v, In v (f_vars f) -> xi v = eta v) by (intros v Hv; apply H, mentioned_in; eauto).
  revert Js Hv. generalize (f_vars f). induction l as [|v l IH]; intros [|J Js] Hv; cbn [zipw]; auto. f_equal; [rewrite Hv; [auto | left; auto] | apply IH; intros; apply Hv; right; auto].
Qed.
Lemma inner_ext xi xi' eta eta' : agree fs xi xi' -> agree fs eta eta' -> inner fs xi eta = inner fs xi' eta'.
Proof. intros H H'. unfold inner. apply vsum_map_ext. intros v Hv. rewrite H, H' by auto. auto. Qed.
Lemma field_vec xi : tangent E fs xi -> exists x, length x = n /\ agree fs (block C L x) xi.
Proof.
  intros H. destruct (vec_of_blocks C true (mentioned fs) ND xi H) as (x & Hl & Hb). exists x. split; auto.
Qed.
Lemma block_tangent x : length x = n -> tangent E fs (block C L x).
Proof. intros Hx v Hv. apply (PAssign.block_length C (mentioned fs) true ND); auto. Qed.
Lemma inner_block x y : length x = n -> length y = n -> inner fs (block C L x) (block C L y) = vdot x y.
Proof.
  intros Hx Hy. rewrite (vdot_blocks C true (mentioned fs) ND x y) by auto. unfold inner. apply vsum_perm, Permutation_map.
  apply NoDup_Permutation; auto; [apply order_nodup; auto|]. intros v. symmetry. apply order_in.
Qed.
Lemma extent_block x : length x = n -> size fs (block C L x) = vnorm x.
Proof. intros Hx. unfold size. rewrite inner_block by auto. rewrite <- sumsq_dot. reflexivity. Qed.

(* ---- the linearised problem ---- *)
Lemma at_holds a val : assigns E fs a val -> same_layout (as_layout a) (g_layout g) -> holds E fs a val.
Proof. apply (lin_holds E fs g WP Eg). Qed.
Lemma cost_book a val : holds E fs a val -> compute_cost E g a = Ok (cost_at E fs val, rvec fs (wv E val)) /\ legal E fs val /\ length (rvec fs (wv E val)) = mm.
Proof.
  intros Ha. destruct bk_parts as (CO & Hok & Hws & Hg & Hne & Hrd). pose proof (holds_legal E fs CO a val Ha) as Hl.
  pose proof (wv_len E fs Hok Hws val Hl) as Hw. split; [|split; [auto | apply rvec_length; auto]].
  destruct (one_cost E fs g Hok Hg a val (holds_assigns E fs a val Ha) (fun f Hf => ws_residual E fs Hws val f Hl Hf) Hne) as (_ & Hc).
  fold (wv E val) in Hc. rewrite Hc. do 2 f_equal. rewrite sumsq_dot, rvec_vdot by auto. unfold cost_at. apply vsum_map_ext. intros f Hf.
  unfold wv. destruct (whitened_at_ok E val f) as (w & Ew & _); [apply Hok; auto | apply (ws_residual E fs Hws); auto|]. rewrite Ew. cbn. rewrite sumsq_dot. auto.
Qed.

Record linearised (s : sstate R) (val old : var -> pytree R) (A : coo R) : Prop := {
  ls_holds : holds E fs (s_assign s) val;
  ls_jac : compute_whitened_residual_jacobian E g (s_assign s) (s_res s) = Ok A;
  ls_ok : coo_ok A; ls_shape : m_shape A = (mm, n); ls_res : length (s_res s) = mm;
  ls_model : forall x, length x = n -> model E fs val old (block C L x) = sumsq (vadd (mapply A x) (s_res s)) }.

Lemma linearise s val old : carries E fs g s val old -> exists A, linearised s val old A.
Proof.
  intros (Ha & Hl & _ & b & c & Hb & Hlb & Ec). destruct bk_parts as (CO & Hok & Hws & Hg & Hne & Hrd).
  pose proof (at_holds _ _ Ha Hl) as Hh. pose proof (at_holds _ _ Hb Hlb) as Hhb. destruct (cost_book _ _ Hhb) as (Ec' & Lo & Ln).
  rewrite Ec in Ec'. injection Ec' as _ Er. pose proof (holds_legal E fs CO _ _ Hh) as Lv. pose proof (wv_len E fs Hok Hws old Lo) as Hw.
  destruct (one_jacobian E fs g Hok Hg Hrd (s_assign s) val _ Ha (fun f Hf => ws_jacobian E fs Hws val f Lv Hf) Hw) as (A & EA & HA & Hs & Hx).
  exists A. split; auto; try (rewrite Er; auto). intros x Hx'. rewrite Hx by auto. unfold model. apply (model_sum E fs Hok Hrd Hws val old _ x); auto.
Qed.

Lemma carried_ready s val old : carries E fs g s val old -> PTotal.ready E fs s.
Proof. intros H. destruct (linearise s val old H) as (A & HL). split; [exists val; apply (ls_holds _ _ _ _ HL) | apply (ls_res _ _ _ _ HL)]. Qed.

Section System.
Variables (s : sstate R) (val old : var -> pytree R) (A : coo R).
Hypothesis HL : linearised s val old A.
Let HA := ls_ok _ _ _ _ HL.
Let r := s_res s.
Lemma sy_cols : snd (m_shape A) = n. Proof. rewrite (ls_shape _ _ _ _ HL). auto. Qed.
Lemma sy_rows : fst (m_shape A) = mm. Proof. rewrite (ls_shape _ _ _ _ HL). auto. Qed.

Lemma normal_damped beta x ATb : 0 < beta -> length ATb = n -> (forall y, length y = n -> vdot y ATb = - vdot (mapply A y) r) ->
  normal_ok A beta ATb x -> damped_step E fs beta val old (block C L x).
Proof.
  intros Hb Hl HT Hn. pose proof (proj1 Hn) as Hx. rewrite sy_cols in Hx. split; [apply block_tangent; auto|]. intros eta Ht.
  destruct (field_vec eta Ht) as (y & Hy & Hag). assert (Hag' : agree fs eta (block C L y)) by (intros v Hv; symmetry; auto).
  rewrite (model_ext val old eta _ Hag'), (inner_ext eta _ eta _ Hag' Hag'). rewrite !(ls_model _ _ _ _ HL) by auto. rewrite !inner_block by auto. fold r.
  assert (Hw : forall z, length z = n -> vdot (mapply A z) (mapply A x) + beta * vdot z x = vdot z ATb).
  { pose proof (proj1 (normal_weak A beta HA ATb x ltac:(rewrite sy_cols; auto) ltac:(rewrite sy_cols; auto)) Hn) as H. rewrite sy_cols in H. exact H. }
  assert (Lr : length r = mm) by apply (ls_res _ _ _ _ HL). assert (LA : forall z, length (mapply A z) = mm) by (intros; rewrite mapply_length; apply sy_rows).
  rewrite !sumsq_add by (rewrite LA; auto).
  pose proof (Hw x Hx) as W1. pose proof (Hw y Hy) as W2. rewrite HT in W1, W2 by auto.
  assert (Hd : sumsq (vsub (mapply A y) (mapply A x)) = sumsq (mapply A y) - 2 * vdot (mapply A y) (mapply A x) + sumsq (mapply A x)) by (rewrite sumsq_sub by (rewrite !LA; auto); lra).
  assert (He : sumsq (vsub y x) = sumsq y - 2 * vdot y x + sumsq x) by (rewrite sumsq_sub by congruence; lra).
  pose proof (sumsq_nonneg (vsub (mapply A y) (mapply A x))) as P1. pose proof (sumsq_nonneg (vsub y x)) as P2.
  rewrite <- sumsq_dot in W1. rewrite <- !sumsq_dot. rewrite <- sumsq_dot in W1. 
  assert (P3 : 0 <= beta * sumsq (vsub y x)) by (apply Rmult_le_pos; lra). split; [nra|]. intros Hle.
  assert (Hz : beta * sumsq (vsub y x) = 0) by nra. assert (Hz' : sumsq (vsub y x) = 0) by (apply (Rmult_eq_reg_l beta); lra).
  assert (y = x). { apply sumsq_zero in Hz'. apply (nth_ext' _ _ 0); [congruence|]. intros i Hi. assert (Hn0 : nth i (vsub y x) 0 = 0). { rewrite Hz'. unfold vzero. apply nth_repeat. } rewrite nth_vsub in Hn0 by congruence. lra. }
  subst y. intros v Hv. apply Hag'; auto.
Qed.
Lemma neg_dot : forall y, length y = n -> vdot y (mapply (transpose A) (vneg r)) = - vdot (mapply A y) r.
Proof.
  intros y Hy. rewrite <- mapply_adjoint; auto; [apply vdot_neg_r | rewrite sy_cols; auto|]. unfold vneg. rewrite map_length, sy_rows. apply (ls_res _ _ _ _ HL).
Qed.
Lemma solved_damped lambd it x : 0 < lambd + 1 / 100000 -> cholmod_solve A (mapply (transpose A) (vneg r)) lambd it = Ok x ->
  length x = n /\ normal_ok A (lambd + 1 / 100000) (mapply (transpose A) (vneg r)) x /\ damped_step E fs (lambd + 1 / 100000) val old (block C L x).
Proof.
  intros Hl Ex. assert (El : Rlit 1 100000 = 1 / 100000) by (unfold Rlit; lra). assert (Hb : length (mapply (transpose A) (vneg r)) = n) by (rewrite mapply_length; cbn; apply sy_cols).
  destruct (cholmod_solve_ok A (mapply (transpose A) (vneg r)) lambd it HA) as (x' & Ex' & Hx); [rewrite El; auto | rewrite sy_cols; auto|].
  rewrite Ex in Ex'. injection Ex' as <-. rewrite El in Hx. split; [rewrite <- sy_cols; apply Hx|]. split; auto. apply (normal_damped _ _ (mapply (transpose A) (vneg r))); auto. apply neg_dot.
Qed.
Lemma went_to x a' : length x = n -> manifold_retract C (s_assign s) (mkAssign x (g_local_layout g)) = Ok a' ->
  exists val', holds E fs a' val' /\ as_layout a' = as_layout (s_assign s) /\ moved E fs val (block C L x) val'.
Proof.
  intros Hx Hr. destruct bk_parts as (CO & Hok & Hws & Hg & Hne & Hrd). rewrite (ig_local _ _ _ Hg) in Hr.
  destruct (retract_holds E fs CO (fun _ _ => True) (s_assign s) val x (ws_preserved E fs Hws) (ls_holds _ _ _ _ HL) (fun _ _ => I) Hx) as (a1 & val' & H1 & H2 & H3 & H4).
  unfold C in Hr. rewrite Hr in H1. injection H1 as <-. exists val'. split; auto. split; auto. intros v Hv. apply H4; auto.
Qed.
End System.

Lemma holds_carries s val c : holds E fs (s_assign s) val -> compute_cost E g (s_assign s) = Ok (c, s_res s) -> s_cost s = c -> carries E fs g s val val.
Proof.
  intros Hh Ec Hc. destruct bk_parts as (CO & Hok & Hws & Hg & Hne & Hrd). destruct (cost_book _ _ Hh) as (Ec' & _).
  assert (Hs : same_layout (as_layout (s_assign s)) (g_layout g)) by (rewrite (ig_layout _ _ _ Hg); destruct Hh as (vs & _ & H & _); auto).
  pose proof (holds_assigns E fs _ _ Hh) as Ha. split; auto. split; auto. split; [congruence|]. exists (s_assign s), c. auto.
Qed.

(* ---- Gauss-Newton ---- *)
Lemma update_book s val ATb delta a' : carries E fs g s val val -> gn_update E cholmod_solve g s = Ok (ATb, delta, a') ->
  exists val', holds E fs a' val' /\ gauss_newton_turn E fs val val'.
Proof.
  intros Hc Hu. destruct (linearise s val val Hc) as (A & HL). unfold gn_update in Hu. rewrite (ls_jac _ _ _ _ HL) in Hu. cbn [bind] in Hu.
  assert (Lr : length (s_res s) = fst (m_shape A)) by (rewrite (sy_rows s val val A HL); apply (ls_res _ _ _ _ HL)).
  rewrite matmul_mapply in Hu; [|apply transpose_ok, (ls_ok _ _ _ _ HL) | cbn; auto]. cbn [bind] in Hu.
  rewrite neg_gradient in Hu by (auto; apply (ls_ok _ _ _ _ HL)). apply bind_ok in Hu. destruct Hu as (x & Ex & Hu). apply bind_ok in Hu. destruct Hu as (a1 & Er & Hu). injection Hu as _ _ <-.
  change n0 with 0 in Ex. destruct (solved_damped s val val A HL 0 (s_iter s) x) as (Hx & _ & Hd); auto; [lra|]. rewrite Rplus_0_l in Hd.
  destruct (went_to s val val A HL x a1 Hx Er) as (val' & Hh & _ & Hm). exists val'. split; auto. exists (block C L x). auto.
Qed.
Lemma gn_book cfg s s' val : carries E fs g s val val -> gn_step E cfg cholmod_solve g s = Ok s' ->
  exists val', carries E fs g s' val' val' /\ gauss_newton_turn E fs val val'.
Proof.
  intros Hc H. unfold gn_step in H. apply bind_ok in H. destruct H as (((b & d) & a') & Eu & H). apply bind_ok in H. destruct H as ((c & r) & Ec & H).
  apply bind_ok in H. destruct H as (conv & _ & H). injection H as <-. destruct (update_book _ _ _ _ _ Hc Eu) as (val' & Hh & Ht). exists val'. split; auto.
  apply (holds_carries _ _ c); auto.
Qed.
Lemma fixed_book it s s' val : carries E fs g s val val -> fixed_step E it cholmod_solve g s = Ok s' ->
  exists val', carries E fs g s' val' val' /\ gauss_newton_turn E fs val val'.
Proof.
  intros Hc H. unfold fixed_step in H. apply bind_ok in H. destruct H as (((b & d) & a') & Eu & H). apply bind_ok in H. destruct H as ((c & r) & Ec & H).
  injection H as <-. destruct (update_book _ _ _ _ _ Hc Eu) as (val' & Hh & Ht). exists val'. split; auto. apply (holds_carries _ _ c); auto.
Qed.

(* ---- trust-region solvers ---- *)
Lemma decide s s' val old A x prop c r q qmin extra : carries E fs g s val old -> linearised s val old A -> length x = n ->
  trust_step E g qmin s s' A x prop c r q -> s_extra s' = extra q (Rleb qmin q) ->
  exists p b', moved E fs val (block C L x) p /\ decided E fs qmin val old (block C L x) p extra b' /\
    carries E fs g s' (b_val b') (b_old b') /\ s_extra s' = b_extra b' /\ q = quality E fs val old (block C L x) p.
Proof.
  intros Hc HL Hx [EA Ep Ec (Ad & Em & Eq) Hacc Hrej Hr _] He. rewrite (ls_jac _ _ _ _ HL) in EA. 
  destruct (went_to s val old A HL x prop Hx Ep) as (p & Hh & Hlay & Hm). destruct (cost_book _ _ Hh) as (Ec' & _). rewrite Ec in Ec'. injection Ec' as Ecp Erp.
  rewrite matmul_mapply in Em by (try apply (ls_ok _ _ _ _ HL); rewrite (sy_cols s val old A HL); auto). injection Em as <-.
  pose proof Hc as (Ha & Hl & Hcost & Hb).
  assert (Hq : q = quality E fs val old (block C L x) p).
  { rewrite Eq. rn. unfold quality. rewrite (ls_model _ _ _ _ HL) by auto. rewrite <- Hcost, Ecp. reflexivity. }
  assert (Hlp : same_layout (as_layout prop) (g_layout g)) by (rewrite Hlay; auto). pose proof (holds_assigns E fs _ _ Hh) as Hap.
  assert (Hold : exists b c0, assigns E fs b p /\ same_layout (as_layout b) (g_layout g) /\ compute_cost E g b = Ok (c0, s_res s')) by (exists prop, c; rewrite Hr; auto).
  exists p. destruct (Rleb qmin q) eqn:Eb.
  - destruct (Hacc Eb) as (E1 & E2). apply Rleb_ok in Eb. exists (mkBook p p (extra q true)). split; auto. split; [left; rewrite <- Hq; auto|]. split; [|split; auto].
    cbn [b_val b_old]. split; [rewrite E1; auto|]. split; [rewrite E1; auto|]. split; [congruence | auto].
  - destruct (Hrej Eb) as (E1 & E2). apply Rleb_no in Eb. exists (mkBook val p (extra q false)). split; auto. split; [right; rewrite <- Hq; auto|]. split; [|split; auto].
    cbn [b_val b_old]. split; [rewrite E1; auto|]. split; [rewrite E1; auto|]. split; [congruence | auto].
Qed.

Lemma trust_system s s' val old A A0 x prop c r q qmin ATb : linearised s val old A -> trust_step E g qmin s s' A0 x prop c r q ->
  matmul (transpose A0) (vneg (s_res s)) = Ok ATb -> A0 = A /\ ATb = mapply (transpose A) (vneg (s_res s)).
Proof.
  intros HL [EA _ _ _ _ _ _ _] Eb. rewrite (ls_jac _ _ _ _ HL) in EA. injection EA as <-. split; auto.
  rewrite matmul_mapply in Eb; [congruence | apply transpose_ok, (ls_ok _ _ _ _ HL)|]. cbn. unfold vneg. rewrite map_length, (ls_res _ _ _ _ HL), (sy_rows s val old A HL). auto.
Qed.

Lemma lm_book cfg s s' val old : carries E fs g s val old -> 0 < s_extra s + 1 / 100000 -> lm_step E cfg cholmod_solve g s = Ok s' ->
  exists b', lm_turn E fs cfg (mkBook val old (s_extra s)) b' /\ carries E fs g s' (b_val b') (b_old b') /\ s_extra s' = b_extra b'.
Proof.
  intros Hc Hl H. destruct (linearise s val old Hc) as (A & HL). destruct (lm_tr E cfg _ g s s' H) as (A0 & ATb & x & prop & c & r & q & Ht & Eb & Ex & Ee & _).
  destruct (trust_system _ _ _ _ _ _ _ _ _ _ _ _ _ HL Ht Eb) as (-> & ->). destruct (solved_damped s val old A HL (s_extra s) (s_iter s) x) as (Hx & _ & Hd); auto.
  set (ex := fun (_ : R) (accept : bool) => if accept then s_extra s / lambda_factor cfg else Rmax (lambda_min cfg) (Rmin (s_extra s * lambda_factor cfg) (lambda_max cfg))).
  destruct (decide s s' val old A x prop c r q (lm_quality_min cfg) ex Hc HL Hx Ht) as (p & b' & Hm & Hdec & Hc' & He & _).
  - rewrite Ee. unfold lm_lambda, ex. rn. destruct (Rleb _ q); auto.
  - exists b'. split; [|auto]. exists (block C L x), p. auto.
Qed.

Lemma vneg_block x v : block C L (vneg x) v = vneg (block C L x v).
Proof. apply block_map. Qed.
Lemma scale_block t x v : block C L (vscale t x) v = vscale t (block C L x v).
Proof. apply block_map. Qed.

Lemma dl_book cfg s s' val old : carries E fs g s val old -> 0 < s_extra s -> dl_step E cfg cholmod_solve g s = Ok s' ->
  exists b', dogleg_turn E fs cfg (mkBook val old (s_extra s)) b' /\ carries E fs g s' (b_val b') (b_old b') /\ s_extra s' = b_extra b' /\ 0 < s_extra s'.
Proof.
  intros Hc Hrad H. destruct (linearise s val old Hc) as (A & HL). destruct (dl_tr E cfg _ g s s' H) as (A0 & ATb & gn & Asd & x & prop & c & r & q & Ht & Eb & Eg' & EAs & Ex & Ee & _).
  destruct (trust_system _ _ _ _ _ _ _ _ _ _ _ _ _ HL Ht Eb) as (-> & EATb). pose proof Eb as Eb'. rewrite EATb in Eg'. change n0 with 0 in Eg'.
  destruct (solved_damped s val old A HL 0 (s_iter s) gn) as (Hgn & Hnorm & Hd); auto; [lra|]. rewrite Rplus_0_l in Hd, Hnorm.
  pose proof (ls_ok _ _ _ _ HL) as HA. pose proof (sy_cols s val old A HL) as Hcol. pose proof (sy_rows s val old A HL) as Hrow.
  assert (Lv : length (vneg (s_res s)) = fst (m_shape A)) by (unfold vneg; rewrite map_length, Hrow; apply (ls_res _ _ _ _ HL)).
  assert (LT : length ATb = n) by (rewrite EATb, mapply_length; cbn; auto).
  destruct (dogleg_in_region A (vneg (s_res s)) gn (s_extra s) ATb Asd HA Lv) as (D1 & D2); auto; [congruence|]. rewrite Hcol in *.
  assert (Hz : ATb <> vzero n \/ vnorm gn <= s_extra s).
  { destruct (list_eq_dec Req_EM_T ATb (vzero n)) as [Hz|]; [right | left; auto].
    assert (gn = vzero n) as ->. { rewrite <- Hcol. apply (normal_descent A (1 / 100000) (vneg (s_res s)) gn HA ltac:(lra) Lv Hnorm). rewrite <- EATb, Hcol. auto. }
    rewrite (vnorm_eq (vzero n) 0); try lra. rewrite sumsq_dot, vdot_zero_r. lra. }
  destruct (D2 Hz) as (I1 & I2 & I3 & I4 & I5). rewrite <- Ex in *.
  assert (Hx : length x = n) by (rewrite Ex; apply dogleg_length; auto).
  set (a := vscale (sumsq ATb / sumsq Asd) ATb) in *. assert (La : length a = n) by (unfold a; rewrite vscale_length; auto).
  assert (Hpt : dogleg_point E fs (s_extra s) val old (block C L x)).
  { exists (block C L gn). split; auto. rewrite !extent_block by auto. destruct (Rle_lt_dec (vnorm gn) (s_extra s)) as [Hle|Hgt].
    { left. split; auto. rewrite (I2 Hle). intros v _. auto. }
    right. split; auto. split; [auto|]. assert (Hne : ATb <> vzero n) by (destruct Hz; auto; lra). destruct (D1 Hne) as (_ & Hbest).
    exists (block C L a). rewrite extent_block by auto. split.
    - exists (block C L ATb), (sumsq ATb / sumsq Asd). split; [|split].
      + split; [apply block_tangent; auto|]. intros eta Hte. destruct (field_vec eta Hte) as (y & Hy & Hag). assert (Hag' : agree fs eta (block C L y)) by (intros v Hv; symmetry; auto).
        rewrite (model_ext val old eta _ Hag'), (inner_ext (block C L ATb) (block C L ATb) eta _ (fun _ _ => eq_refl) Hag').
        rewrite (model_ext val old (fun v => vneg (eta v)) (block C L (vneg y))) by (intros v Hv; rewrite vneg_block, Hag by auto; auto).
        assert (Ln : length (vneg y) = n) by (unfold vneg; rewrite map_length; auto). rewrite !(ls_model _ _ _ _ HL) by auto. rewrite inner_block by auto.
        rewrite (vdot_comm ATb). rewrite EATb, (neg_dot s val old A HL) by auto. rewrite neg_scale, mapply_scale by (auto; rewrite (sy_cols s val old A HL); auto).
        assert (LA : forall z, length (mapply A z) = length (s_res s)) by (intros; rewrite mapply_length, Hrow; symmetry; apply (ls_res _ _ _ _ HL)).
        rewrite !sumsq_add by (rewrite ?vscale_length; auto). rewrite sumsq_scale, vdot_scale_l. lra.
      + intros v _. unfold along, a. apply scale_block.
      + intros t'. rewrite !(model_ext val old (along _ _) (block C L (vscale _ ATb))) by (intros v _; unfold along; rewrite scale_block; auto).
        rewrite !(ls_model _ _ _ _ HL) by (rewrite vscale_length; auto).
        assert (Ls : forall t, length (vscale t ATb) = snd (m_shape A)) by (intros; rewrite vscale_length, (sy_cols s val old A HL); auto).
        destruct (Hbest t' (mapply A (vscale t' ATb))) as (Aa & E1 & Hle); [apply matmul_mapply; auto|]. rewrite matmul_mapply in E1 by (auto; rewrite (sy_cols s val old A HL); auto). injection E1 as <-.
        rewrite !vsub_neg_add in Hle by (rewrite mapply_length, Hrow; symmetry; apply (ls_res _ _ _ _ HL)). exact Hle.
    - destruct (Rle_lt_dec (s_extra s) (vnorm a)) as [H1|H1]; [left; split; auto|right; split; auto].
      + rewrite (I4 Hgt H1). intros v _. unfold along. apply scale_block.
      + destruct (I5 Hgt H1) as (beta & Hbe & Exx & _). exists beta. split; auto. rewrite Exx. intros v _. unfold vadd at 1, vsub at 1. rewrite block_zipw, scale_block, block_zipw. reflexivity. }
  set (ex := fun (q : R) (_ : bool) => if Rlt_dec q (1 / 4) then s_extra s / 2 else if Rlt_dec (3 / 4) q then Rmax (s_extra s) (3 * size fs (block C L x)) else s_extra s).
  assert (Eex : s_extra s' = ex q (Rleb (dl_quality_min cfg) q)).
  { rewrite Ee. unfold dogleg_radius, ex. rn. rewrite extent_block by auto. unfold Rlit. replace (IZR 1 / IZR 4) with (1 / 4) by lra. replace (IZR 3 / IZR 4) with (3 / 4) by lra.
    destruct (Rlt_dec q (1 / 4)) as [Hq|Hq]; [rewrite (proj2 (Rltb_ok _ _) Hq); lra|]. assert (Rltb q (1 / 4) = false) as -> by (apply Rltb_no; lra).
    destruct (Rlt_dec (3 / 4) q) as [Hq'|Hq']; [rewrite (proj2 (Rltb_ok _ _) Hq'); f_equal; lra|]. assert (Rltb (3 / 4) q = false) as -> by (apply Rltb_no; lra). auto. }
  destruct (decide s s' val old A x prop c r q (dl_quality_min cfg) ex Hc HL Hx Ht Eex) as (p & b' & Hm & Hdec & Hc' & He & _).
  exists b'. split; [exists (block C L x), p; auto|]. split; auto. split; auto. rewrite Eex. unfold ex.
  destruct (Rlt_dec q (1 / 4)); [lra|]. destruct (Rlt_dec (3 / 4) q); auto. eapply Rlt_le_trans; [exact Hrad | apply Rmax_l].
Qed.
End Book.
