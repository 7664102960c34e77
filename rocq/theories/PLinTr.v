(* Levenberg-Marquardt and Dogleg with conjugate gradients on linear least-squares problems. *)
From Coq Require Import List Arith Bool ZArith Lia Permutation Reals Lra Psatz.
From Verif Require Import Num NumR Py Arr MLayout MAssign MNoise MSparse MFactor MGraph MLinear MSolver SpecLayout SpecTree SpecAssign SpecGraph SpecSparse SpecDeriv SpecSolver SpecOrder SpecInv SpecLin SpecCgLin.
From Verif Require Import PBase PLayout PAssign PAssign2 PStack PGraph PGraph2 PGraph3 PGraph4 PVec PSparse PLinear PCg PCgConv PJac PGraph5 PLayout2 POrder PHold PExGraph PSolver PSolver2 PInv PTotal PSolverR PDescent PLin PLinDl PLinCg PNear.
Import ListNotations.
Local Open Scope R_scope.

Lemma nth_le_norm (x : list R) i : Rabs (nth i x 0) <= vnorm x.
Proof.
  destruct (vnorm_sq x) as (H0 & H1). assert (H : nth i x 0 * nth i x 0 <= sumsq x).
  { rewrite sumsq_dot. clear. revert i. induction x as [|y x IH]; intros i.
    - rewrite vdot_nil_l. destruct i; simpl; lra.
    - rewrite vdot_cons. pose proof (Rle_0_sqr y) as Hy. unfold Rsqr in Hy. pose proof (sumsq_nonneg x) as Hx. rewrite sumsq_dot in Hx. destruct i; simpl; [lra|]. specialize (IH i). lra. }
  rewrite <- H1 in H. apply Rsqr_incr_0_var; auto. rewrite <- Rsqr_abs. unfold Rsqr. auto.
Qed.

Lemma sq_le b v : Rabs b <= v -> b * b <= v * v.
Proof. unfold Rabs. destruct (Rcase_abs b); intros H; nra. Qed.

Lemma vsum_le {X} (f h : X -> R) l : (forall x, In x l -> f x <= h x) -> vsum (map f l) <= vsum (map h l).
Proof. induction l as [|x l IH]; intros H; simpl map; [lra|]. rewrite !vsum_cons. pose proof (H x (or_introl eq_refl)). specialize (IH (fun y Hy => H y (or_intror Hy))). lra. Qed.

(* one bound for the matrix and for the diagonal of A^T A *)
Lemma frobenius (A : coo R) : coo_ok A -> exists F, 0 < F /\
  (forall y, length y = snd (m_shape A) -> sumsq (mapply A y) <= F * sumsq y) /\ (forall y, diag_form A y y <= F * sumsq y).
Proof.
  intros HA. set (S := vsum (map (fun t => Rabs (snd t)) (triples A)) + 1). set (Q := vsum (map (fun t => snd t * snd t) (triples A))).
  assert (HS : 1 <= S). { unfold S. assert (0 <= vsum (map (fun t : nat * nat * R => Rabs (snd t)) (triples A))); [|lra]. apply vsum_nonneg. intros z Hz. apply in_map_iff in Hz. destruct Hz as (t & <- & _). apply Rabs_pos. }
  assert (HQ : 0 <= Q). { apply vsum_nonneg. intros z Hz. apply in_map_iff in Hz. destruct Hz as (t & <- & _). apply Rle_0_sqr. }
  exists (S * S + Q). split; [nra|]. split.
  - intros y Hy. set (w := mapply A y). assert (Hw : length w = fst (m_shape A)) by apply mapply_length.
    destruct (vnorm_sq w) as (W0 & W1). destruct (vnorm_sq y) as (Y0 & Y1).
    assert (H : vdot w w <= S * (vnorm w * vnorm y)).
    { unfold w at 2. rewrite mapply_dot by auto. unfold bil. apply Rle_trans with (vsum (map (fun t => (vnorm w * vnorm y) * Rabs (snd t)) (triples A))).
      - apply vsum_le. intros t _. set (a := nth (fst (fst t)) w 0). set (b := nth (snd (fst t)) y 0).
        pose proof (nth_le_norm w (fst (fst t))) as Ha. pose proof (nth_le_norm y (snd (fst t))) as Hb. fold a in Ha. fold b in Hb.
        apply Rle_trans with (Rabs (snd t) * (Rabs a * Rabs b)).
        + rewrite <- !Rabs_mult. eapply Rle_trans; [|apply Rle_abs]. right. ring.
        + rewrite Rmult_comm. apply Rmult_le_compat_r; [apply Rabs_pos|]. apply Rmult_le_compat; auto using Rabs_pos.
      - rewrite (vsum_map_scale (vnorm w * vnorm y) (fun t => Rabs (snd t))). rewrite Rmult_comm. apply Rmult_le_compat_r; [apply Rmult_le_pos; auto | unfold S; lra]. }
    rewrite <- sumsq_dot, <- W1 in H. rewrite <- W1, <- Y1.
    assert (Hwy : vnorm w <= S * vnorm y). { destruct (Req_dec (vnorm w) 0) as [->|Hz]; [apply Rmult_le_pos; lra|]. apply (Rmult_le_reg_r (vnorm w)); [lra|]. lra. }
    assert (vnorm w * vnorm w <= S * vnorm y * (S * vnorm y)) by (apply Rmult_le_compat; auto). assert (0 <= Q * (vnorm y * vnorm y)) by (apply Rmult_le_pos; auto; apply Rle_0_sqr). lra.
  - intros y. destruct (vnorm_sq y) as (Y0 & Y1). unfold diag_form. apply Rle_trans with (vsum (map (fun t => (vnorm y * vnorm y) * (snd t * snd t)) (triples A))).
    + apply vsum_le. intros t _. set (b := nth (snd (fst t)) y 0). pose proof (nth_le_norm y (snd (fst t))) as Hb. fold b in Hb.
      assert (b * b <= vnorm y * vnorm y) by (apply sq_le; auto).
      rewrite Rmult_comm. apply Rmult_le_compat_r; auto. apply Rle_0_sqr.
    + rewrite (vsum_map_scale (vnorm y * vnorm y) (fun t => snd t * snd t)). fold Q. rewrite Y1. pose proof (sumsq_nonneg y). assert (0 <= S * S * sumsq y) by (apply Rmult_le_pos; auto; apply Rle_0_sqr). lra.
Qed.

(* a solution within the tolerance takes a fixed part of the gradient *)
Lemma inexact_lower (A : coo R) lambd F t tt c x : coo_ok A -> 0 <= lambd -> 0 < F ->
  (forall y, length y = snd (m_shape A) -> sumsq (mapply A y) <= F * sumsq y) -> (forall y, diag_form A y y <= F * sumsq y) ->
  length c = snd (m_shape A) -> length x = snd (m_shape A) -> Rabs tt <= t -> t < 1 ->
  sumsq (vsub c (cg_op A lambd x)) <= tt * tt * sumsq c ->
  (1 - t) * (1 - t) * sumsq c <= (1 + lambd) * F * vdot x (cg_op A lambd x).
Proof.
  intros HA Hl HF H1 H2 Hc Hx Ht Ht1 Hres. set (n := snd (m_shape A)) in *. set (w := cg_op A lambd x) in *. assert (Hw : length w = n) by (apply cg_op_length; auto).
  destruct (cg_op_linear A lambd HA) as [Ha Hs]. destruct (cg_sym_psd A lambd HA) as [Hsym Hpsd]. specialize (Hpsd Hl). fold n in Ha, Hs, Hsym, Hpsd.
  set (K := (1 + lambd) * F). assert (HK : 0 < K) by (apply Rmult_lt_0_compat; lra).
  assert (Hww : vdot w (cg_op A lambd w) <= K * sumsq w).
  { rewrite cg_form, <- sumsq_dot by auto. specialize (H1 w Hw). specialize (H2 w). assert (lambd * diag_form A w w <= lambd * (F * sumsq w)) by (apply Rmult_le_compat_l; auto). unfold K. lra. }
  assert (Hlow : sumsq w <= K * vdot x w).
  { set (s := / K). assert (HsK : s * K = 1) by (unfold s; field; lra). assert (Hs0 : 0 < s) by (apply Rinv_0_lt_compat; auto).
    set (u := vadd x (vscale (- s) w)). assert (Hu : length u = n) by (unfold u; rewrite vadd_length; rewrite ?vscale_length; congruence).
    pose proof (Hpsd u Hu) as Hp. assert (Eu : cg_op A lambd u = vadd w (vscale (- s) (cg_op A lambd w))).
    { unfold u. rewrite Ha, Hs by (rewrite ?vscale_length; auto). reflexivity. }
    pose proof (cg_op_length A lambd w Hw) as Hlw. fold n in Hlw.
    rewrite Eu, vdot_add_r, vdot_scale_r in Hp by (rewrite ?vscale_length; congruence). unfold u in Hp. rewrite !vdot_add_l, !vdot_scale_l in Hp by (rewrite ?vscale_length; congruence).
    rewrite <- (sumsq_dot w) in Hp. assert (Exw : vdot x (cg_op A lambd w) = sumsq w).
    { rewrite Hsym by auto. fold w. rewrite sumsq_dot. auto. }
    rewrite Exw in Hp. assert (Hq : s * s * vdot w (cg_op A lambd w) <= s * sumsq w).
    { apply Rle_trans with (s * s * (K * sumsq w)); [apply Rmult_le_compat_l; [apply Rle_0_sqr | auto]|]. right. replace (s * s * (K * sumsq w)) with (s * (s * K) * sumsq w) by ring. rewrite HsK. ring. }
    apply (Rmult_le_reg_l s); auto. replace (s * (K * vdot x w)) with (s * K * vdot x w) by ring. rewrite HsK. lra. }
  destruct (vnorm_sq c) as (C0 & C1). destruct (vnorm_sq w) as (W0 & W1). set (d := vsub c w) in *. destruct (vnorm_sq d) as (D0 & D1).
  assert (Hd : length d = n) by (unfold d; rewrite vsub_length; congruence).
  assert (Ht0 : 0 <= t) by (pose proof (Rabs_pos tt); lra).
  assert (Hdn : vnorm d <= t * vnorm c).
  { assert (Hsq : vnorm d * vnorm d <= (t * vnorm c) * (t * vnorm c)).
    { rewrite D1. eapply Rle_trans; [exact Hres|]. rewrite <- C1. assert (Htt : tt * tt <= t * t) by (apply sq_le; auto).
      assert (0 <= vnorm c * vnorm c) by apply Rle_0_sqr. replace (t * vnorm c * (t * vnorm c)) with (t * t * (vnorm c * vnorm c)) by ring. apply Rmult_le_compat_r; auto. }
    apply Rsqr_incr_0_var; [exact Hsq | apply Rmult_le_pos; auto]. }
  assert (Ecw : c = vadd d w).
  { apply (nth_ext' _ _ 0); [rewrite vadd_length; congruence|]. intros i Hi. rewrite nth_vadd by congruence. unfold d. rewrite nth_vsub by congruence. lra. }
  pose proof (norm_triangle d w ltac:(congruence)) as Htr. rewrite <- Ecw, <- C1 in Htr.
  assert (Hcn : vnorm c <= vnorm d + vnorm w) by (apply Rsqr_incr_0_var; [exact Htr | lra]).
  assert (Hfin : (1 - t) * vnorm c <= vnorm w) by lra.
  assert (0 <= (1 - t) * vnorm c) by (apply Rmult_le_pos; lra).
  assert ((1 - t) * vnorm c * ((1 - t) * vnorm c) <= vnorm w * vnorm w) by (apply Rmult_le_compat; auto).
  fold K. rewrite <- C1. replace ((1 - t) * (1 - t) * (vnorm c * vnorm c)) with ((1 - t) * vnorm c * ((1 - t) * vnorm c)) by ring. lra.
Qed.

Lemma cg_zero (A : coo R) lambd it (tol : nat -> R) : coo_ok A -> cg_solve tol A (vzero (snd (m_shape A))) lambd it = Ok (vzero (snd (m_shape A))).
Proof.
  intros HA. set (n := snd (m_shape A)). assert (Hz : length (@vzero R NumR n) = n) by apply vzero_length.
  assert (Eo : cg_op A lambd (vzero n) = vzero n).
  { apply (vec_ext n); [apply cg_op_length; auto | auto|]. intros y Hy. rewrite (proj1 (cg_sym_psd A lambd HA)) by auto. rewrite vdot_zero_l, vdot_zero_r. auto. }
  assert (Ed : vsub (vzero n) (vzero n) = vzero n).
  { apply (vec_ext n); [rewrite vsub_length; auto | auto|]. intros y Hy. rewrite vdot_sub_r by auto. rewrite vdot_zero_r. lra. }
  pose proof (ata_function_ok A lambd (vzero n) HA Hz) as Ea. fold n in Ea. fold (cg_op A lambd (vzero n)) in Ea. unfold cg_solve, cg_run, cg. rewrite Hz, Ea. cbn [bind].
  change (vadd _ _) with (cg_op A lambd (vzero n)). rewrite Eo, Ed.
  assert (Hno : nltb (nmax (nmul (nmul (tol it) (tol it)) (vdot (vzero n) (vzero n))) (nmul n0 n0)) (vdot (vzero n) (@vzero R NumR n)) = false).
  { rn. apply Rltb_no. rewrite vdot_zero_l. eapply Rle_trans; [|apply Rmax_r]. lra. }
  destruct n; cbn [cg_loop]; rewrite ?Hno; reflexivity.
Qed.

Section Lin.
Variable E : env R.
Let C := e_cls E.
Variable fs : list (factor R).
Variable g : graph R.
Hypothesis LP : linear_problem E fs.
Hypothesis CO : classes_ok C.
Hypothesis Hok : forall f, In f fs -> factor_ok f.
Hypothesis Hg : is_graph E fs g.
Hypothesis Hne : fs <> [].
Hypothesis Hrd : total residual_dim fs <> 0%nat.
Hypothesis Hws : well_shaped E fs.
Let L := graph_layout E fs true.
Let n := l_dim L.
Let m := total residual_dim fs.
Notation fresh := (fresh E fs g).
Variable A : coo R.
Hypothesis HA : coo_ok A.
Hypothesis Hsh : m_shape A = (m, n).
Hypothesis HJ : forall s, fresh s -> compute_whitened_residual_jacobian E g (s_assign s) (s_res s) = Ok A.
Definition ngrad (s : sstate R) : list R := mapply (transpose A) (vneg (s_res s)).
Definition fall (s : sstate R) (d : list R) : R := 2 * vdot d (ngrad s) - sumsq (mapply A d).

Lemma res_length s : fresh s -> length (s_res s) = m.
Proof. intros (Hcur & val & Ha). destruct (cost_total E CO fs g Hok Hg Hne Hws _ (ex_intro _ val Ha)) as (c2 & r2 & E2 & L2). unfold current in Hcur. rewrite Hcur in E2. injection E2 as <- <-. auto. Qed.
Lemma ngrad_length s : length (ngrad s) = n.
Proof. unfold ngrad. rewrite mapply_length. cbn. rewrite Hsh. auto. Qed.

Lemma moves s d : fresh s -> length d = n ->
  exists a' c' r' val', manifold_retract C (s_assign s) (mkAssign d L) = Ok a' /\ compute_cost E g a' = Ok (c', r') /\ holds E fs a' val' /\
    c' = sumsq (vadd (mapply A d) (s_res s)) /\ c' = s_cost s - fall s d /\ as_storage a' = vadd (as_storage (s_assign s)) d.
Proof.
  intros Hf Hd. pose proof (HJ s Hf) as EA. destruct (lin_move E fs g LP CO Hok Hg Hne Hrd Hws s A d Hf EA Hd) as (a2 & c2 & r2 & val2 & Er2 & Ec2 & Hh2 & Hc2 & Hr2 & Hst2).
  pose proof (res_length s Hf) as Hm. destruct Hf as (Hcur & val & Ha). pose proof (cost_parts E g _ _ _ Hcur) as (_ & Hcost).
  assert (Hneg : length (vneg (s_res s)) = fst (m_shape A)) by (unfold vneg; rewrite map_length, Hsh; auto).
  assert (LA : forall v, length (mapply A v) = m) by (intros v; rewrite mapply_length, Hsh; auto).
  exists a2, c2, r2, val2. do 3 (split; [auto|]). split; [rewrite vadd_comm, <- Hr2; auto|]. split; auto.
  pose proof (model_change A (vneg (s_res s)) HA Hneg d ltac:(rewrite Hsh; auto)) as Hmc.
  rewrite vsub_neg_add in Hmc by (rewrite LA; auto). rewrite vadd_comm, <- Hr2, <- Hc2 in Hmc. rewrite Hmc. unfold fall, ngrad. rewrite Hcost. f_equal. rewrite !sumsq_dot, vdot_neg_r, vdot_comm, vdot_neg_r. lra.
Qed.

Lemma exact_trust qmin s s' A' d prop c r q : qmin <= 1 -> fresh s -> length d = n -> trust_step E g qmin s s' A' d prop c r q ->
  (0 < fall s d -> q = 1 /\ fresh s' /\ s_cost s' = s_cost s - fall s d) /\
  (d = vzero n -> fresh s' /\ s_cost s' = s_cost s).
Proof.
  intros Hq Hf Hd Ht. destruct Ht as [EA' Er Ec (Ad & EAd & Eq) Hacc Hrej Hres _]. rewrite (HJ s Hf) in EA'. injection EA' as <-.
  destruct (moves s d Hf Hd) as (a2 & c2 & r2 & val2 & Er2 & Ec2 & Hh2 & Hc2 & Hfall & Hst2).
  rewrite (ig_local _ _ _ Hg) in Er. fold C L in Er. rewrite Er in Er2. injection Er2 as <-. rewrite Ec in Ec2. injection Ec2 as <- <-.
  rewrite matmul_mapply in EAd by (auto; rewrite ?Hsh; auto). injection EAd as <-. rnin Eq. rewrite <- Hc2 in Eq. split.
  - intros Hp. assert (Hq1 : q = 1) by (rewrite Eq; field; lra). split; auto.
    assert (Eacc : nleb qmin q = true) by (rewrite Hq1; rn; apply Rleb_ok; auto). destruct (Hacc Eacc) as (Es1 & Es2).
    split; [split; [unfold current; rewrite Es1, Es2, Hres; exact Ec | exists val2; rewrite Es1; auto] | lra].
  - intros ->. destruct Hf as (Hcur & val & Ha). pose proof (held_length E fs LP CO _ _ Ha : _ = n) as Hla.
    assert (Hprop : prop = s_assign s).
    { pose proof (retract_layout _ _ _ _ Er) as HLa. assert (Hs2 : as_storage prop = as_storage (s_assign s)) by (rewrite Hst2, <- (Hla : _ = n); apply vadd_zero).
      destruct prop, (s_assign s); cbn in *; congruence. }
    rewrite Hprop in *. unfold current in Hcur. rewrite Hcur in Ec. injection Ec as <- <-.
    assert (Es : s_assign s' = s_assign s /\ s_cost s' = s_cost s) by (destruct (nleb qmin q) eqn:Eacc; auto). destruct Es as (Es1 & Es2).
    split; auto. split; [unfold current; rewrite Es1, Es2, Hres; exact Hcur | exists val; rewrite Es1; auto].
Qed.

Variables (F t : R).
Hypothesis HF : 0 < F.
Hypothesis HFA : forall y, length y = snd (m_shape A) -> sumsq (mapply A y) <= F * sumsq y.
Hypothesis HFD : forall y, diag_form A y y <= F * sumsq y.
Hypothesis Hcol : no_zero_column A.
Variable tol : nat -> R.
Hypothesis Htol : forall i, Rabs (tol i) <= t.
Hypothesis Ht1 : t < 1.

(* what the linear solver returns *)
Lemma cg_part s lambd : fresh s -> 0 <= lambd ->
  exists x, cg_solve tol A (ngrad s) lambd (s_iter s) = Ok x /\ length x = n /\
    (1 - t) * (1 - t) * sumsq (ngrad s) <= (1 + lambd) * F * vdot x (ngrad s) /\ sumsq (mapply A x) <= vdot x (ngrad s) /\
    (ngrad s = vzero n -> x = vzero n).
Proof.
  intros Hf Hl. pose proof (res_length s Hf) as Hm. assert (Hneg : length (vneg (s_res s)) = fst (m_shape A)) by (unfold vneg; rewrite map_length, Hsh; auto).
  destruct (cg_converges A (vneg (s_res s)) lambd (s_iter s) tol HA Hl Hneg Hcol) as (x & Ex & _ & Hx & Hres & Hgal). fold (ngrad s) in Ex, Hres, Hgal.
  exists x. split; auto. split; [rewrite Hx, Hsh; auto|]. assert (Hn : length (ngrad s) = snd (m_shape A)) by (rewrite ngrad_length, Hsh; auto).
  pose proof (inexact_lower A lambd F t (tol (s_iter s)) (ngrad s) x HA Hl HF HFA HFD Hn Hx (Htol _) Ht1 Hres) as Hlow. rewrite <- Hgal in Hlow.
  split; auto. split.
  - rewrite Hgal, cg_form, <- sumsq_dot by auto. pose proof (Rmult_le_pos _ _ Hl (diag_form_nonneg A x)). lra.
  - intros Hz. rewrite Hz in Ex. replace n with (snd (m_shape A)) in Ex |- * by (rewrite ?Hsh; auto). rewrite cg_zero in Ex by auto. injection Ex as <-. auto.
Qed.

Lemma grad_zero s : sumsq (ngrad s) = 0 -> ngrad s = vzero n.
Proof. intros H. apply sumsq_zero in H. rewrite ngrad_length in H. auto. Qed.
Lemma part_pos lambd G : 0 <= lambd -> 0 < G -> 0 < (1 - t) * (1 - t) / ((1 + lambd) * F) * G.
Proof. intros Hl Hp. apply Rmult_lt_0_compat; auto. apply Rdiv_lt_0_compat; [apply Rmult_lt_0_compat; lra | apply Rmult_lt_0_compat; lra]. Qed.
Lemma part_le lambd G v : 0 <= lambd -> (1 - t) * (1 - t) * G <= (1 + lambd) * F * v -> (1 - t) * (1 - t) / ((1 + lambd) * F) * G <= v.
Proof.
  intros Hl H. assert (0 < (1 + lambd) * F) by (apply Rmult_lt_0_compat; lra). apply (Rmult_le_reg_l ((1 + lambd) * F)); auto.
  replace ((1 + lambd) * F * ((1 - t) * (1 - t) / ((1 + lambd) * F) * G)) with ((1 - t) * (1 - t) * G) by (field; lra). auto.
Qed.
Lemma ngrad_matmul s b : fresh s -> matmul (transpose A) (vneg (s_res s)) = Ok b -> b = ngrad s.
Proof.
  intros Hf H. pose proof (res_length s Hf) as Hm. rewrite matmul_mapply in H; [injection H as <-; auto | auto using transpose_ok | cbn; rewrite Hsh; unfold vneg; rewrite map_length; auto].
Qed.

Lemma lm_falls cfg s s' : 1 <= lambda_factor cfg -> 0 <= lambda_min cfg -> lm_quality_min cfg <= 1 -> fresh s -> 0 <= s_extra s -> lm_step E cfg (cg_solve tol) g s = Ok s' ->
  fresh s' /\ 0 <= s_extra s' /\ s_iter s' = S (s_iter s) /\
  ((sumsq (ngrad s) = 0 /\ s_cost s' = s_cost s) \/
   (s_extra s' = s_extra s / lambda_factor cfg /\ s_cost s' <= s_cost s - (1 - t) * (1 - t) / ((1 + s_extra s) * F) * sumsq (ngrad s))).
Proof.
  intros Hfac Hmin Hq Hf Hl H. destruct (lm_tr E _ _ _ _ _ H) as (A' & b & x & prop & c & r & q & Ht & Eb & Ex & Eex & _).
  pose proof Ht as [EA' _ _ _ _ _ _ Hit]. rewrite (HJ s Hf) in EA'. injection EA' as <-. apply (ngrad_matmul s b Hf) in Eb. subst b.
  destruct (cg_part s (s_extra s) Hf Hl) as (x' & Ex' & Hx & Hlow & Hle & Hz). rewrite Ex in Ex'. injection Ex' as <-.
  destruct (exact_trust _ _ _ _ _ _ _ _ _ Hq Hf Hx Ht) as (T1 & T2).
  assert (Hlam : 0 <= s_extra s').
  { rewrite Eex. unfold lm_lambda. rn. destruct (Rleb (lm_quality_min cfg) q); [apply (PLin.shrink (s_extra s) (lambda_factor cfg)); auto|]. eapply Rle_trans; [exact Hmin | apply Rmax_l]. }
  destruct (sumsq_nonneg (ngrad s)) as [Hp|Hz0].
  - pose proof (part_le _ _ _ Hl Hlow) as Hpl. pose proof (part_pos _ _ Hl Hp) as Hpp. assert (Hfall : 0 < fall s x) by (unfold fall; lra).
    destruct (T1 Hfall) as (Hq1 & Hf' & Hc'). split; [exact Hf'|]. split; [auto using Rlt_le|]. split; [lia|]. right. split.
    + rewrite Eex, Hq1. unfold lm_lambda. rn. rewrite (proj2 (Rleb_ok _ _) Hq). auto.
    + rewrite Hc'. unfold fall. lra.
  - symmetry in Hz0. destruct (T2 (Hz (grad_zero s Hz0))) as (Hf' & Hc'). split; [exact Hf'|]. split; [auto using Rlt_le|]. split; [lia|]. left; auto.
Qed.

Lemma dl_falls cfg s s' : dl_quality_min cfg <= 1 -> fresh s -> 0 < s_extra s -> dl_step E cfg (cg_solve tol) g s = Ok s' ->
  fresh s' /\ 0 < s_extra s' /\ s_iter s' = S (s_iter s) /\
  ((sumsq (ngrad s) = 0 /\ s_cost s' = s_cost s) \/
   (s_extra s <= s_extra s' /\ s_cost s' <= s_cost s - Rmin (s_extra s * vnorm (ngrad s)) ((1 - t) * (1 - t) / F * sumsq (ngrad s)))).
Proof.
  intros Hq Hf Hx H. destruct (dl_tr E _ _ _ _ _ H) as (A' & b & gn & Asd & d & prop & c & r & q & Ht & Eb & Egn & Easd & Ed & Eex & _).
  pose proof Ht as [EA' _ _ _ _ _ _ Hit]. rewrite (HJ s Hf) in EA'. injection EA' as <-. apply (ngrad_matmul s b Hf) in Eb. subst b.
  destruct (cg_part s 0 Hf ltac:(lra)) as (x' & Ex' & Hgn & Hlow & Hle & Hz). change (n0 (T := R)) with 0 in Egn. rewrite Egn in Ex'. injection Ex' as <-.
  pose proof (ngrad_length s) as Hlg. set (gg := ngrad s) in *.
  rewrite matmul_mapply in Easd by (auto; rewrite ?Hsh; auto). injection Easd as <-.
  assert (Hld : length d = n) by (rewrite Ed; apply dogleg_length; auto).
  destruct (exact_trust _ _ _ _ _ _ _ _ _ Hq Hf Hld Ht) as (T1 & T2).
  assert (Hrad : 0 < s_extra s') by (rewrite Eex; apply (dogleg_radius_ok (s_extra s) q d Hx)).
  destruct (sumsq_nonneg gg) as [Hp|Hz0].
  - set (kk := (1 - t) * (1 - t) / F * sumsq gg).
    assert (Hk0 : 0 < kk) by (unfold kk; apply Rmult_lt_0_compat; auto; apply Rdiv_lt_0_compat; auto; apply Rmult_lt_0_compat; lra).
    assert (Hkg : kk <= vdot gn gg). { pose proof (part_le 0 _ _ ltac:(lra) Hlow) as HH. rewrite Rplus_0_r, Rmult_1_l in HH. exact HH. }
    destruct (vnorm_sq gg) as (G0 & G1). assert (G2 : 0 < vnorm gg) by nra.
    assert (Hrg : 0 < s_extra s * vnorm gg) by (apply Rmult_lt_0_compat; auto).
    assert (Hdec : Rmin (s_extra s * vnorm gg) kk <= fall s d).
    { unfold fall. fold gg. pose proof (Rmin_l (s_extra s * vnorm gg) kk) as M1. pose proof (Rmin_r (s_extra s * vnorm gg) kk) as M2.
      assert (Hnz : gg <> vzero n). { intros Hzz. rewrite Hzz, sumsq_dot, vdot_zero_l in Hp. lra. }
      pose proof (res_length s Hf) as Hm. assert (Hneg : length (vneg (s_res s)) = fst (m_shape A)) by (unfold vneg; rewrite map_length, Hsh; auto).
      destruct (steepest_defined A (vneg (s_res s)) HA Hneg) as (Hpp & _); [rewrite Hsh; exact Hnz|]. fold (ngrad s) in Hpp. fold gg in Hpp.
      destruct (dogleg_step_ok gg (mapply A gg) gn (s_extra s) Hx ltac:(congruence) ltac:(left; lra)) as (_ & C1 & _ & C2 & C3). rewrite <- Ed in C1, C2, C3.
      set (p := sumsq (mapply A gg)) in *. set (alpha := sumsq gg / p) in *. set (a := vscale alpha gg) in *.
      assert (Hal : 0 < alpha) by (apply Rdiv_lt_0_compat; auto). assert (Hap : alpha * p = sumsq gg) by (unfold alpha; field; lra).
      assert (Na : vnorm a = alpha * vnorm gg). { apply vnorm_eq; [apply Rmult_le_pos; lra|]. unfold a. rewrite sumsq_scale, <- G1. ring. }
      assert (Hla : length a = n) by (unfold a; rewrite vscale_length; auto).
      assert (HpF : p <= F * sumsq gg) by (apply HFA; rewrite Hsh; auto).
      assert (LA : forall v, length (mapply A v) = m) by (intros v; rewrite mapply_length, Hsh; auto).
      destruct (Rle_lt_dec (vnorm gn) (s_extra s)) as [Hc|Hc]; [rewrite (C1 Hc); lra|].
      destruct (Rle_lt_dec (s_extra s) (vnorm a)) as [Hc2|Hc2].
      - rewrite (C2 Hc Hc2). assert (Ed' : vscale (s_extra s / vnorm a) a = vscale (s_extra s / vnorm gg) gg).
        { apply (nth_ext' _ _ 0); [unfold a; rewrite !vscale_length; auto|]. intros i _. rewrite Na. unfold a. rewrite !nth_vscale. field. lra. }
        rewrite Ed', vdot_scale_l, <- sumsq_dot, mapply_scale, sumsq_scale by (rewrite ?Hsh; auto). fold p.
        set (u := s_extra s / vnorm gg). assert (Htg : u * vnorm gg = s_extra s) by (unfold u; field; lra).
        assert (Hu : 0 < u) by (apply Rdiv_lt_0_compat; auto).
        assert (Hta : u <= alpha). { apply (Rmult_le_reg_r (vnorm gg)); auto. rewrite Htg, <- Na. auto. }
        assert (Htp : u * p <= sumsq gg). { rewrite <- Hap. apply Rmult_le_compat_r; lra. }
        assert (Htt : u * (u * p) <= u * sumsq gg) by (apply Rmult_le_compat_l; lra).
        assert (Hrg' : s_extra s * vnorm gg = u * sumsq gg) by (rewrite <- Htg, <- G1; ring). lra.
      - destruct (C3 Hc Hc2) as (bt & Hbt & Ed' & _). rewrite Ed'.
        set (w := vsub gn a) in *. assert (Hlw : length w = n) by (unfold w; rewrite vsub_length; congruence).
        assert (Hag : vdot a gg = alpha * sumsq gg) by (unfold a; rewrite vdot_scale_l, <- sumsq_dot; auto).
        assert (HAa : sumsq (mapply A a) = alpha * sumsq gg). { unfold a. rewrite mapply_scale, sumsq_scale by (rewrite ?Hsh; auto). fold p. rewrite <- Hap. ring. }
        assert (Hkk : kk <= alpha * sumsq gg).
        { unfold kk. apply Rmult_le_compat_r; [lra|]. unfold alpha. apply (Rmult_le_reg_r (F * p)); [apply Rmult_lt_0_compat; lra|].
          replace ((1 - t) * (1 - t) / F * (F * p)) with ((1 - t) * (1 - t) * p) by (field; lra). replace (sumsq gg / p * (F * p)) with (F * sumsq gg) by (field; lra).
          pose proof (Rabs_pos (tol 0)) as Ha0. pose proof (Htol 0%nat) as Ht0. assert ((1 - t) * (1 - t) <= 1) by nra. nra. }
        (* the quadratic model is convex between the two ends *)
        assert (Eag : gn = vadd a w). { apply (nth_ext' _ _ 0); [rewrite vadd_length; congruence|]. intros i Hi. rewrite nth_vadd by congruence. unfold w. rewrite nth_vsub by congruence. lra. }
        assert (Hla' : length a = snd (m_shape A)) by (rewrite Hsh; auto). assert (Hlw' : length w = snd (m_shape A)) by (rewrite Hsh; auto).
        rewrite mapply_add by (rewrite ?vscale_length; auto). rewrite mapply_scale by auto. rewrite sumsq_add by (rewrite vscale_length, !LA; auto). rewrite vdot_add_l by (rewrite vscale_length; congruence). rewrite vdot_scale_l, vdot_scale_r, sumsq_scale.
        assert (Egg : 2 * vdot gn gg - sumsq (mapply A gn) = 2 * vdot a gg - sumsq (mapply A a) + 2 * vdot w gg - 2 * vdot (mapply A a) (mapply A w) - sumsq (mapply A w)).
        { rewrite Eag. rewrite mapply_add by auto. rewrite sumsq_add by (rewrite !LA; auto). rewrite vdot_add_l by congruence. lra. }
        set (X := vdot (mapply A a) (mapply A w)) in *. set (Y := sumsq (mapply A w)) in *. assert (HY : 0 <= Y) by apply sumsq_nonneg.
        set (W := vdot w gg) in *. rewrite Hag, HAa in *. set (Z := alpha * sumsq gg) in *.
        assert (Hend : kk <= Z + 2 * W - 2 * X - Y) by lra.
        assert (bt * bt * Y <= bt * Y) by (apply Rmult_le_compat_r; nra).
        assert (Hin : bt * (kk - Z) <= bt * (2 * W - 2 * X - Y)) by (apply Rmult_le_compat_l; lra).
        assert (Hconv : kk <= Z + bt * (2 * W - 2 * X - Y)). { assert (0 <= (1 - bt) * (Z - kk)) by (apply Rmult_le_pos; lra). lra. }
        lra. }
    assert (Hmp : 0 < Rmin (s_extra s * vnorm gg) kk) by (apply Rmin_glb_lt; auto).
    destruct (T1 ltac:(lra)) as (Hq1 & Hf' & Hc'). split; [exact Hf'|]. split; [auto using Rlt_le|]. split; [lia|]. right. split; [|lra].
    rewrite Eex. apply (dogleg_radius_ok (s_extra s) q d Hx). lra.
  - symmetry in Hz0. pose proof (Hz (grad_zero s Hz0)) as Hgz.
    assert (Hd0 : d = vzero n).
    { rewrite Ed. destruct (dogleg_step_ok gg (mapply A gg) gn (s_extra s) Hx ltac:(congruence)) as (_ & C1 & _).
      - right. rewrite Hgz, (vnorm_eq _ 0); [lra | lra | rewrite sumsq_dot, vdot_zero_l; ring].
      - rewrite C1; auto. rewrite Hgz, (vnorm_eq _ 0); [lra | lra | rewrite sumsq_dot, vdot_zero_l; ring]. }
    destruct (T2 Hd0) as (Hf' & Hc'). split; [exact Hf'|]. split; [auto using Rlt_le|]. split; [lia|]. left; auto.
Qed.

Lemma gn_falls s s' : fresh s -> advances E g tol s s' ->
  fresh s' /\ s_cost s' <= s_cost s - (1 - t) * (1 - t) / F * sumsq (ngrad s).
Proof.
  intros Hf (b & d & Hu & Ec & Hi). pose proof (res_length s Hf) as Hm. assert (Hm' : length (s_res s) = fst (m_shape A)) by (rewrite ?Hsh; auto).
  unfold gn_update in Hu. rewrite (HJ s Hf) in Hu. cbn [bind] in Hu. rewrite matmul_mapply in Hu by (auto using transpose_ok). cbn [bind] in Hu.
  rewrite neg_gradient in Hu by auto. fold (ngrad s) in Hu. change (n0 (T := R)) with 0 in Hu.
  destruct (cg_part s 0 Hf ltac:(lra)) as (x & Ex & Hx & Hlow & Hle & _). rewrite Ex in Hu. cbn [bind] in Hu.
  apply bind_ok in Hu. destruct Hu as (a' & Er & Hu). injection Hu as _ _ Ea. subst a'.
  destruct (moves s x Hf Hx) as (a2 & c2 & r2 & val2 & Er2 & Ec2 & Hh2 & Hc2 & Hfall & Hst2).
  rewrite (ig_local _ _ _ Hg) in Er. fold C L in Er. rewrite Er in Er2. injection Er2 as <-. rewrite Ec in Ec2. injection Ec2 as <- _.
  split; [split; [exact Ec | exists val2; auto]|]. rewrite Hfall. unfold fall.
  pose proof (part_le 0 _ _ ltac:(lra) Hlow) as HH. rewrite Rplus_0_r, Rmult_1_l in HH. lra.
Qed.

(* the excess of the cost is bounded by the gradient *)
Variable sigma : R.
Hypothesis Hsig : 0 < sigma.
Hypothesis Hbb : forall x, length x = n -> ortho A x -> sigma * sumsq x <= sumsq (mapply A x).
Variables (z : assign R) (valz : var -> pytree R) (cz : R) (rz : list R).
Hypothesis Hz : holds E fs z valz.
Hypothesis Ez : compute_cost E g z = Ok (cz, rz).

Lemma excess s : fresh s -> sigma * (s_cost s - cz) <= sumsq (ngrad s).
Proof.
  intros Hf. pose proof (res_length s Hf) as Hm. pose proof (HJ s Hf) as EA. destruct Hf as (Hcur & val & Ha).
  pose proof (cost_parts E g _ _ _ Hcur) as (Hw & Hcost). pose proof (cost_parts E g _ _ _ Ez) as (Hwz & Hcz).
  destruct (lin_residual E fs g LP CO Hok Hg Hne Hrd Hws (s_assign s) val z valz _ _ (s_res s) A Ha Hz Hm Hw Hwz EA) as (_ & _ & _ & Hrz).
  pose proof (held_length E fs LP CO _ _ Ha : _ = n) as La. pose proof (held_length E fs LP CO _ _ Hz : _ = n) as Lz.
  set (e := vsub (as_storage z) (as_storage (s_assign s))) in *. assert (Le : length e = n) by (unfold e; rewrite vsub_length; congruence).
  assert (Hneg : length (vneg (s_res s)) = fst (m_shape A)) by (unfold vneg; rewrite map_length, Hsh; auto).
  destruct (pseudo A HA (vneg (s_res s)) Hneg) as (p & Hp & Op & Hpn). rewrite Hsh in Hp, Hpn. cbn [snd] in Hp, Hpn.
  assert (LA : forall v, length (mapply A v) = m) by (intros v; rewrite mapply_length, Hsh; auto).
  assert (Hcz' : s_cost s - sumsq (mapply A p) <= cz).
  { rewrite Hcz, Hrz, sumsq_add by (rewrite LA; auto). rewrite Hcost. pose proof (Hpn e Le) as H1. rewrite vdot_neg_r, (vdot_comm (mapply A e) (s_res s)) in H1.
    pose proof (sumsq_nonneg (vsub (mapply A e) (mapply A p))) as H2. rewrite sumsq_sub in H2 by (rewrite !LA; auto). lra. }
  assert (Hpg : sumsq (mapply A p) = vdot p (ngrad s)) by (rewrite sumsq_dot, Hpn by auto; unfold ngrad; rewrite mapply_adjoint; auto; rewrite Hsh; auto).
  pose proof (cauchy_schwarz p (ngrad s) ltac:(rewrite ngrad_length; auto)) as CS. rewrite <- Hpg in CS. specialize (Hbb p Hp Op).
  pose proof (sumsq_nonneg (mapply A p)) as P1. pose proof (sumsq_nonneg (ngrad s)) as P2. set (X := sumsq (mapply A p)) in *. set (G := sumsq (ngrad s)) in *.
  assert (HX : sigma * X <= G).
  { destruct P1 as [P1|P1]; [|rewrite <- P1; lra]. apply (Rmult_le_reg_r X); auto. replace (sigma * X * X) with (sigma * (X * X)) by ring.
    apply Rle_trans with (sigma * (sumsq p * G)); [apply Rmult_le_compat_l; lra|]. replace (sigma * (sumsq p * G)) with (sigma * sumsq p * G) by ring. rewrite (Rmult_comm G X). apply Rmult_le_compat_r; auto. }
  assert (sigma * (s_cost s - cz) <= sigma * X) by (apply Rmult_le_compat_l; lra). lra.
Qed.
End Lin.
