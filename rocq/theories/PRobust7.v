(* The values of least loss: they exist, fit the measurements in one way only, and Gauss-Newton's values converge to them. *)
From Coq Require Import List Arith Bool ZArith Lia Permutation Reals Lra Psatz.
From Verif Require Import Num NumR Py Arr MLayout MAssign MNoise MSparse MFactor MGraph MLinear MSolver SpecLayout SpecTree SpecAssign SpecGraph SpecSparse SpecDeriv SpecNoise SpecSolver SpecOrder SpecInv SpecLin SpecCgLin SpecLoss SpecTrCg SpecLocal SpecHalt SpecRobust.
From Verif Require Import PBase PLayout PTree PVec PSparse PAssign PAssign2 PGraph PGraph2 PHold PExGraph PSolver PSolver2 PSolverR PDescent PLinear PInv PTotal PCg PLin PLinDl PLinCg PLocal PNear PLinTr PHalt PRobust PRobust2 PRobust3 PRobust4 PRobust5 PRobust6 Ex ExG ExS PExInv PExSolver PExOrder PExSym PExTwin PExLoss PExLin PExLinCg PExLinDl PExLocal PExSuper PExNear PExLinTr PExHalt PExPart PExRobust.
Import ListNotations.
Local Open Scope R_scope.

Lemma vanishing a b K q : 0 <= q < 1 -> (forall k, a <= b + K * q ^ k) -> a <= b.
Proof.
  intros Hq H. apply le_epsilon. intros eps He. set (D := Rabs K + 1). assert (HD : 0 < D) by (unfold D; pose proof (Rabs_pos K); lra).
  destruct (pow_lt_1_zero q) with (y := eps / D) as (N & HN); [rewrite Rabs_pos_eq; lra | apply Rdiv_lt_0_compat; lra|]. specialize (HN N ltac:(lia)). rewrite Rabs_pos_eq in HN by (apply pow_le; lra).
  specialize (H N). assert (0 <= q ^ N) by (apply pow_le; lra). assert (K * q ^ N <= D * q ^ N) by (apply Rmult_le_compat_r; auto; unfold D; pose proof (Rle_abs K); lra).
  apply (Rmult_lt_compat_l D) in HN; auto. replace (D * (eps / D)) with eps in HN by (field; lra). lra.
Qed.
Lemma sub_add (a b : list R) : length a = length b -> vadd a (vsub b a) = b.
Proof. intros H. apply (nth_ext' _ _ 0); [rewrite vadd_length; rewrite ?vsub_length; congruence|]. intros i Hi. rewrite nth_vadd by (rewrite vsub_length; congruence). rewrite nth_vsub by congruence. lra. Qed.
Lemma pow_sqrt c k : 0 <= c -> sqrt c ^ k * sqrt c ^ k = c ^ k.
Proof. intros H. rewrite <- Rpow_mult_distr, sqrt_sqrt; auto. Qed.
Lemma whiten_core (nm : noise R) r r' : whiten_residual (core nm) r = whiten_residual (core nm) r' -> whiten_residual nm r = whiten_residual nm r'.
Proof. destruct nm as [| |w d]; auto. cbn [core]. intros H. cbn [whiten_residual]. rewrite H. auto. Qed.

Section Bundle.
Variable E : env R.
Variable fs : list (factor R).
Variable g : graph R.
Hypothesis RP : robust_problem E fs.
Hypothesis WP : well_posed E fs.
Hypothesis Eg : graph_make E fs = Ok g.
Notation n := (l_dim (graph_layout E fs true)).
Notation fresh := (fresh E fs g).
Notation ngrad A s := (mapply (transpose A) (vneg (s_res s))).
Notation loss := (total_loss E fs).

Lemma loss_nonneg val : legal E fs val -> 0 <= loss val.
Proof.
  pose proof WP as [CO Hok Hws _ _]. intros Hl. rewrite (total_loss_profile E fs RP Hok Hws val Hl). apply PVec.vsum_nonneg. intros z Hz. apply in_map_iff in Hz. destruct Hz as (f & <- & Hf).
  apply profile_nonneg; [apply (rp_noise _ _ RP f Hf) | apply norm_pos].
Qed.
Lemma state_of z valz : assigns E fs z valz -> exists s, fresh s /\ holds E fs (s_assign s) valz.
Proof.
  destruct (posed_graph E fs WP) as (Hne & _ & Hrd & Hpd). pose proof WP as [CO Hok Hws _ _]. destruct (made E fs g Hok Eg) as (Hg & _).
  intros Hz. destruct (update_holds E CO fs z valz Hz) as (z' & _ & Hz'). destruct (cost_total E CO fs g Hok Hg Hne Hws z' (ex_intro _ valz Hz')) as (c0 & r0 & Ec & _).
  exists (mkState 0 z' c0 r0 false 0). split; auto. split; [exact Ec | exists valz; auto].
Qed.
Lemma assigned_legal z valz : assigns E fs z valz -> legal E fs valz.
Proof. intros Hz. destruct (state_of z valz Hz) as (s & _ & Hh). pose proof WP as [CO _ _ _ _]. apply (holds_legal E fs CO _ _ Hh). Qed.

(* one step with the Cholesky solver *)
Lemma cholmod_moves F s val s' A : 0 < F -> (forall x, length x = n -> sumsq (mapply A x) <= F * sumsq x) -> fresh s -> holds E fs (s_assign s) val ->
  compute_whitened_residual_jacobian E g (s_assign s) (s_res s) = Ok A -> moved E g cholmod_solve s s' ->
  exists val', fresh s' /\ holds E fs (s_assign s') val' /\
    sumsq (vsub (as_storage (s_assign s')) (as_storage (s_assign s))) <= 200000 * (loss val - loss val') /\ sumsq (ngrad A s) <= 2 * (F + 1 / 100000) * (loss val - loss val').
Proof.
  destruct (posed_graph E fs WP) as (Hne & _ & Hrd & Hpd). pose proof WP as [CO Hok Hws _ _]. destruct (made E fs g Hok Eg) as (Hg & _). destruct (start_exists E fs g WP Eg) as (sr & valr & Ar & Hfr & Hhr & EAr).
  intros HF HU Hf Ha EA (b & d & Hu & Ec). destruct (jac_of E fs g CO Hok Hg Hne Hrd Hws s Hf) as (A' & EA' & HA & Hsh & Hm & Hw). rewrite EA in EA'. injection EA' as <-. assert (Hm' : length (s_res s) = fst (m_shape A)) by (rewrite ?Hsh; auto).
  unfold gn_update in Hu. rewrite EA in Hu. cbn [bind] in Hu. rewrite matmul_mapply in Hu by (auto using transpose_ok). cbn [bind] in Hu.
  rewrite neg_gradient in Hu by auto. change (n0 (T := R)) with 0 in Hu.
  assert (Hgl : length (ngrad A s) = n) by (rewrite mapply_length; cbn; rewrite Hsh; auto).
  destruct (cholmod_solve_ok A (ngrad A s) 0 (s_iter s) HA) as (x & Ex & Hx); [unfold Rlit; lra | rewrite Hsh; auto|]. replace (0 + Rlit 1 100000) with (1 / 100000) in Hx by (unfold Rlit; lra).
  assert (Hxl : length x = n) by (rewrite (proj1 Hx), Hsh; auto). rewrite Ex in Hu. cbn [bind] in Hu. apply bind_ok in Hu. destruct Hu as (a' & Er & Hu). injection Hu as _ _ Ea. subst a'.
  destruct (pl_retract E fs (rp_plain _ _ RP) CO Hws (s_assign s) val x Ha Hxl) as (a2 & val2 & Er2 & Hh2 & Hst2). rewrite (ig_local _ _ _ Hg) in Er. rewrite Er in Er2. injection Er2 as <-.
  exists val2. split; [split; [exact Ec | exists val2; auto]|]. split; auto.
  destruct (step_forms E fs g RP CO Hok Hg Hne Hrd Hws valr (holds_legal E fs CO _ _ Hhr) (s_assign s) val (s_res s) A x Ha Hw EA Hxl) as (_ & H2 & _ & _). specialize (H2 _ _ Hh2 Hst2). rewrite (ngrad_dot E fs A s x) in H2 by auto.
  destruct (exact_lower A (1 / 100000) F (ngrad A s) x HA ltac:(lra) HF) as (H3 & H4); [rewrite Hsh; auto | rewrite Hsh; auto | auto|].
  assert (H5 : sumsq (mapply A x) + 1 / 100000 * sumsq x = vdot x (ngrad A s)).
  { assert (Hn : length (ngrad A s) = snd (m_shape A)) by (rewrite Hsh; auto). assert (Hxs : length x = snd (m_shape A)) by (rewrite Hsh; auto). pose proof (proj1 (normal_weak A (1 / 100000) HA _ x Hn Hxs) Hx x Hxs) as H. rewrite <- !sumsq_dot in H. auto. }
  assert (Hd : vsub (as_storage (s_assign s')) (as_storage (s_assign s)) = x).
  { pose proof (pl_held_length E fs (rp_plain _ _ RP) CO _ _ Ha : _ = n) as La. rewrite Hst2. apply (nth_ext' _ _ 0); [rewrite vsub_length; rewrite ?vadd_length; congruence|]. intros i Hi. rewrite nth_vsub by (rewrite vadd_length; congruence). rewrite nth_vadd by congruence. lra. }
  rewrite Hd. pose proof (sumsq_nonneg (mapply A x)). split; [lra|]. assert (vdot x (ngrad A s) <= 2 * (loss val - loss val2)) by lra.
  apply Rle_trans with ((F + 1 / 100000) * (2 * (loss val - loss val2))); [|lra]. eapply Rle_trans; [exact H3|]. apply Rmult_le_compat_l; lra.
Qed.

(* Gauss-Newton from any start, its limit *)
Lemma iterates_limit level : exists q K, 0 <= q < 1 /\ 0 <= K /\ forall step, gauss_newton_iteration E g cholmod_solve step -> forall s val, at_values E fs g s val -> loss val <= level ->
  exists z valz, assigns E fs z valz /\ same_layout (as_layout z) (g_layout g) /\ least_loss E fs valz /\
    forall k s', iterate k step s = Ok s' -> exists val', at_values E fs g s' val' /\ distance fs val' valz <= K * sqrt (loss val - loss valz) * q ^ k.
Proof.
  destruct (posed_graph E fs WP) as (Hne & _ & Hrd & Hpd). pose proof WP as [CO Hok Hws _ _]. destruct (made E fs g Hok Eg) as (Hg & _).
  destruct (robust_iterates E fs g RP WP Eg) as (sigma & F0 & HsF0 & HL). destruct (HL level) as (mu & Hmu & HI). clear HL.
  destruct (robust_bounds E fs g RP WP Eg) as (sigma' & F & sr & valr & HsF & Hhr & _ & Hup).
  set (q0 := sigma / (F0 + 1 / 100000)). assert (Hc : 0 < mu * q0 <= 1) by (apply (HI cholmod_solve q0 (gn_step E (term_default 100) cholmod_solve g)); [constructor | left; eauto]).
  set (c := mu * q0) in *. set (q := sqrt (1 - c)). assert (Hq : 0 <= q < 1). { split; [apply sqrt_pos|]. unfold q. rewrite <- sqrt_1 at 2. apply sqrt_lt_1; lra. }
  assert (Hqq : forall k, q ^ k * q ^ k = (1 - c) ^ k) by (intros k; apply pow_sqrt; lra). assert (Hqk : forall k, 0 <= q ^ k <= 1).
  { intros k. split; [apply pow_le; lra|]. apply Rle_trans with (1 ^ k); [apply pow_incr; lra | rewrite pow1; lra]. }
  exists q, (sqrt 200000 / (1 - q)). split; auto. split; [apply Rmult_le_pos; [apply sqrt_pos | left; apply Rinv_0_lt_compat; lra]|]. intros step Hst s val Hs Hlev.
  destruct (HI cholmod_solve q0 step) as (_ & HK); [constructor | auto|]. fold c in HK. clear HI.
  destruct (at_fresh E fs g WP Eg s val Hs) as (Hfs & Hhs). pose proof (holds_legal E fs CO _ _ Hhs) as Hls. pose proof (loss_nonneg val Hls) as Hl0.
  assert (Htot : forall k, exists sk, iterate k step s = Ok sk).
  { intros k. assert (Hr0 : PTotal.ready E fs s). { split; [exists val; auto|]. destruct Hfs as (Hc' & _). destruct (cost_total E CO fs g Hok Hg Hne Hws (s_assign s) (ex_intro _ val Hhs)) as (c1 & r1 & Ec & Hlr). rewrite Hc' in Ec. injection Ec as <- <-. auto. }
    destruct Hst as [(cfg & ->)|(it & ->)].
    - destruct (iterate_total E fs (gn_step E cfg cholmod_solve g) (fun s => gn_total E CO fs g Hok Hg Hne Hrd Hpd Hws cholmod_solve cholmod_total cfg s) k s Hr0) as (st & Est & _). eauto.
    - destruct (iterate_total E fs (fixed_step E it cholmod_solve g) (fun s => fixed_total E CO fs g Hok Hg Hne Hrd Hws cholmod_solve cholmod_total it s) k s Hr0) as (st & Est & _). eauto. }
  set (X := fun k => match iterate k step s with Ok sk => as_storage (s_assign sk) | Err _ => [] end).
  assert (HX : forall k, exists sk vk A, iterate k step s = Ok sk /\ X k = as_storage (s_assign sk) /\ fresh sk /\ holds E fs (s_assign sk) vk /\ compute_whitened_residual_jacobian E g (s_assign sk) (s_res sk) = Ok A /\
     loss vk <= loss val /\ (forall y valy, assigns E fs y valy -> loss vk - loss valy <= (1 - c) ^ k * (loss val - loss valy)) /\
     exists val', legal E fs val' /\ (exists y, assigns E fs y val') /\ sumsq (vsub (X (S k)) (X k)) <= 200000 * (loss vk - loss val') /\ sumsq (ngrad A sk) <= 2 * (F + 1 / 100000) * (loss vk - loss val')).
  { intros k. destruct (Htot k) as (sk & Ek). destruct (Htot (S k)) as (sk' & Ek'). destruct (HK k s val sk Hs Hlev Ek) as (vk & Hvk & Hlk & Hex). destruct (at_fresh E fs g WP Eg sk vk Hvk) as (Hfk & Hhk).
    destruct (jac_of E fs g CO Hok Hg Hne Hrd Hws sk Hfk) as (A & EA & _). exists sk, vk, A. do 7 (split; [unfold X; rewrite ?Ek; auto|]).
    destruct (iterate_last _ _ _ _ Ek') as (s1 & H1 & H2). rewrite Ek in H1. injection H1 as <-.
    destruct (cholmod_moves F sk vk sk' A ltac:(lra) (proj1 (Hup sk A Hfk EA)) Hfk Hhk EA (gn_moved E g cholmod_solve step sk sk' Hst H2)) as (v' & Hf' & Hh' & M1 & M2).
    exists v'. split; [apply (holds_legal E fs CO _ _ Hh')|]. split; [exists (s_assign sk'); apply (holds_assigns E fs _ _ Hh')|]. unfold X. rewrite Ek, Ek'. auto. }
  assert (HXn : forall k, length (X k) = n).
  { intros k. destruct (HX k) as (sk & vk & A & _ & -> & _ & Hh & _). apply (pl_held_length E fs (rp_plain _ _ RP) CO _ _ Hh). }
  assert (HXs : forall k B, (forall vk v', loss vk <= loss val -> (forall y valy, assigns E fs y valy -> loss vk - loss valy <= (1 - c) ^ k * (loss val - loss valy)) -> (exists y, assigns E fs y v') -> loss vk - loss v' <= B * B * (1 - c) ^ k) -> 0 <= B -> vnorm (vsub (X (S k)) (X k)) <= sqrt 200000 * B * q ^ k).
  { intros k B HB HB0. destruct (HX k) as (sk & vk & A & _ & _ & _ & _ & _ & Hlk & Hex & v' & _ & Hy & Hs1 & _). specialize (HB vk v' Hlk Hex Hy). apply norm_le_of.
    - apply Rmult_le_pos; [apply Rmult_le_pos; [apply sqrt_pos | auto] | apply Hqk].
    - replace (sqrt 200000 * B * q ^ k * (sqrt 200000 * B * q ^ k)) with (sqrt 200000 * sqrt 200000 * (B * B * (q ^ k * q ^ k))) by ring. rewrite Hqq, sqrt_sqrt by lra. lra. }
  assert (Hrough : forall k, vnorm (vsub (X (S k)) (X k)) <= sqrt 200000 * sqrt (loss val) * q ^ k).
  { intros k. apply HXs; [|apply sqrt_pos]. intros vk v' _ Hex (y & Hy). rewrite sqrt_sqrt by auto. specialize (Hex y v' Hy). pose proof (loss_nonneg v' (assigned_legal y v' Hy)).
    assert (0 <= (1 - c) ^ k) by (apply pow_le; lra). assert ((1 - c) ^ k * (loss val - loss v') <= (1 - c) ^ k * loss val) by (apply Rmult_le_compat_l; lra). lra. }
  destruct (vector_limit n X _ q Hq HXn Hrough) as (zs & Hzs & Hlim). set (B := sqrt 200000 * sqrt (loss val) / (1 - q)) in *.
  assert (HB : 0 <= B) by (apply Rmult_le_pos; [apply Rmult_le_pos; apply sqrt_pos | left; apply Rinv_0_lt_compat; lra]).
  pose proof (pl_held_length E fs (rp_plain _ _ RP) CO _ _ Hhs : _ = n) as Ls. assert (Hdl : length (vsub zs (as_storage (s_assign s))) = n) by (rewrite vsub_length; congruence).
  destruct (pl_retract E fs (rp_plain _ _ RP) CO Hws (s_assign s) val _ Hhs Hdl) as (z & valz & _ & Hhz & Hsz). rewrite sub_add in Hsz by congruence.
  assert (Hleast : least_loss E fs valz).
  { intros y valy Hy. set (G := sqrt (2 * (F + 1 / 100000) * loss val)). pose proof (loss_nonneg valy (assigned_legal y valy Hy)) as Hly. assert (HG : 0 <= G) by apply sqrt_pos.
    apply (vanishing _ _ (loss val + B * G + F * (B * B)) q Hq). intros k. destruct (HX k) as (sk & vk & A & Ek & EX & Hfk & Hhk & EA & Hlk & Hex & v' & Hl' & _ & _ & Hgr). specialize (Hlim k). rewrite EX in Hlim. set (x := vsub zs (as_storage (s_assign sk))) in *.
    pose proof (pl_held_length E fs (rp_plain _ _ RP) CO _ _ Hhk : _ = n) as Lk. assert (Hx : length x = n) by (unfold x; rewrite vsub_length; congruence).
    destruct (jac_of E fs g CO Hok Hg Hne Hrd Hws sk Hfk) as (A' & EA' & HA & Hsh & Hm & Hw). rewrite EA in EA'. injection EA' as <-.
    destruct (step_forms E fs g RP CO Hok Hg Hne Hrd Hws valr (holds_legal E fs CO _ _ Hhr) (s_assign sk) vk (s_res sk) A x Hhk Hw EA Hx) as (_ & H2 & _ & _).
    specialize (H2 z valz Hhz). rewrite Hsz in H2. specialize (H2 ltac:(unfold x; rewrite sub_add; congruence)). rewrite (ngrad_dot E fs A sk x) in H2 by auto.
    assert (Hgl : length (ngrad A sk) = n) by (rewrite mapply_length; cbn; rewrite Hsh; auto).
    assert (HgG : vnorm (ngrad A sk) <= G). { apply norm_le_of; auto. unfold G. rewrite sqrt_sqrt by (apply Rmult_le_pos; lra). eapply Rle_trans; [exact Hgr|]. apply Rmult_le_compat_l; [lra|]. pose proof (loss_nonneg v' Hl'). lra. }
    assert (Hdot : - vdot x (ngrad A sk) <= vnorm x * vnorm (ngrad A sk)).
    { rewrite <- vdot_neg_r. eapply Rle_trans; [apply dot_norms; unfold vneg at 1; rewrite map_length; rewrite Hx; symmetry; exact Hgl|]. rewrite PBasin5.norm_neg. lra. }
    pose proof (proj1 (Hup sk A Hfk EA) x Hx) as HU. assert (Hxs : sumsq x <= B * q ^ k * (B * q ^ k)) by (apply norm_of_le; auto; apply Rmult_le_pos; auto; apply Hqk).
    assert (Hv : vnorm x * vnorm (ngrad A sk) <= B * q ^ k * G) by (apply Rmult_le_compat; auto; apply norm_pos). specialize (Hex y valy Hy). rewrite <- Hqq in Hex. destruct (Hqk k) as (Q0 & Q1).
    assert (HP : q ^ k * q ^ k <= q ^ k) by nra. set (Q := q ^ k) in *.
    assert (T1 : Q * Q * (loss val - loss valy) <= Q * loss val). { apply Rle_trans with (Q * Q * loss val); [apply Rmult_le_compat_l; nra | apply Rmult_le_compat_r; auto]. }
    assert (T2 : F * sumsq x <= F * (B * B) * Q). { apply Rle_trans with (F * (B * Q * (B * Q))); [apply Rmult_le_compat_l; lra|]. replace (F * (B * Q * (B * Q))) with (F * (B * B) * (Q * Q)) by ring. apply Rmult_le_compat_l; auto. apply Rmult_le_pos; [lra | nra]. }
    assert (0 <= F * (B * B) * Q) by (apply Rmult_le_pos; [apply Rmult_le_pos; nra | auto]). lra. }
  exists z, valz. split; [apply (holds_assigns E fs _ _ Hhz)|]. split; [rewrite (ig_layout _ _ _ Hg); destruct Hhz as (vs & _ & H & _); auto|]. split; auto.
  assert (Hle : loss valz <= loss val) by (apply (Hleast (s_assign s)), (holds_assigns E fs _ _ Hhs)).
  assert (Hfine : forall k, vnorm (vsub (X (S k)) (X k)) <= sqrt 200000 * sqrt (loss val - loss valz) * q ^ k).
  { intros k. apply HXs; [|apply sqrt_pos]. intros vk v' _ Hex (y & Hy). rewrite sqrt_sqrt by lra. specialize (Hex z valz (holds_assigns E fs _ _ Hhz)). pose proof (Hleast y v' Hy). lra. }
  pose proof (limit_bound n X _ q B q zs Hq Hq Hzs HXn Hfine Hlim) as Hfin.
  intros k s' Ek. destruct (HX k) as (sk & vk & A & Ek' & EX & Hfk & Hhk & _). rewrite Ek in Ek'. injection Ek' as <-. exists vk. split; [apply (fresh_at E fs g WP Eg); auto|].
  unfold distance. rewrite <- (pl_distance E fs (rp_plain _ _ RP) CO _ _ _ _ Hhk Hhz). rewrite Hsz, <- EX. change (sqrt (sumsq (vsub zs (X k)))) with (vnorm (vsub zs (X k))). eapply Rle_trans; [apply Hfin|]. right. field. lra.
Qed.

(* at values of least loss the gradient vanishes, and the loss grows quadratically around them *)
Lemma least_grows level : exists mu valr, 0 < mu /\ legal E fs valr /\ forall z valz y valy, holds E fs z valz -> holds E fs y valy -> least_loss E fs valz -> loss valz <= level -> loss valy <= level ->
  mu * bare_form E fs valr (vsub (as_storage y) (as_storage z)) <= loss valy - loss valz.
Proof.
  destruct (posed_graph E fs WP) as (Hne & _ & Hrd & Hpd). pose proof WP as [CO Hok Hws _ _]. destruct (made E fs g Hok Eg) as (Hg & _).
  destruct (robust_bounds E fs g RP WP Eg) as (sigma' & F & sr & valr & HsF & Hhr & _ & Hup). pose proof (holds_legal E fs CO _ _ Hhr) as Hlr.
  destruct (level_modulus (map f_noise fs) level) as (mu & Hmu & HM). { intros nm Hin. apply in_map_iff in Hin. destruct Hin as (f & <- & Hf). apply (rp_noise _ _ RP f Hf). }
  exists (mu / 2), valr. split; [lra|]. split; auto. intros z valz y valy Hz Hy Hleast Lz Ly.
  destruct (cost_total E CO fs g Hok Hg Hne Hws z (ex_intro _ valz Hz)) as (c0 & r0 & Ec & _). set (s := mkState 0 z c0 r0 false 0). assert (Hf : fresh s) by (split; [exact Ec | exists valz; auto]).
  destruct (jac_of E fs g CO Hok Hg Hne Hrd Hws s Hf) as (A & EA & HA & Hsh & Hm & Hw). assert (Hm' : length (s_res s) = fst (m_shape A)) by (rewrite ?Hsh; auto).
  pose proof (pl_held_length E fs (rp_plain _ _ RP) CO _ _ Hz : _ = n) as Llz. pose proof (pl_held_length E fs (rp_plain _ _ RP) CO _ _ Hy : _ = n) as Lly.
  set (x := vsub (as_storage y) (as_storage z)). assert (Hx : length x = n) by (unfold x; rewrite vsub_length; congruence).
  assert (Hgr : mapply (transpose A) (s_res s) = vzero n). { apply (rest_least E fs g RP WP Eg s valz); [apply (fresh_at E fs g WP Eg); auto | | exact Hleast]. exists A. split; auto. apply matmul_mapply; auto using transpose_ok. }
  destruct (step_forms E fs g RP CO Hok Hg Hne Hrd Hws valr Hlr z valz (s_res s) A x Hz Hw EA Hx) as (_ & _ & H3 & _). specialize (H3 level mu HM y valy Hy ltac:(unfold x; rewrite sub_add; congruence) Lz Ly).
  assert (H0 : vdot (mapply A x) (s_res s) = 0). { rewrite (mapply_adjoint A x (s_res s) HA) by (rewrite ?Hsh; auto). rewrite Hgr. apply vdot_zero_r. }
  rewrite H0 in H3. lra.
Qed.
Lemma same_fit z valz y valy f : assigns E fs z valz -> assigns E fs y valy -> least_loss E fs valz -> least_loss E fs valy -> In f fs -> whitened_at E valz f = whitened_at E valy f.
Proof.
  pose proof WP as [CO Hok Hws _ _]. intros Hz Hy Lz Ly Hin.
  destruct (update_holds E CO fs z valz Hz) as (z' & _ & Hz'). destruct (update_holds E CO fs y valy Hy) as (y' & _ & Hy').
  destruct (least_grows (Rmax (loss valz) (loss valy))) as (mu & valr & Hmu & Hlr & H). specialize (H z' valz y' valy Hz' Hy' Lz (Rmax_l _ _) (Rmax_r _ _)). pose proof (Ly z valz Hz) as Hle.
  pose proof (pl_held_length E fs (rp_plain _ _ RP) CO _ _ Hz' : _ = n) as Llz. pose proof (pl_held_length E fs (rp_plain _ _ RP) CO _ _ Hy' : _ = n) as Lly.
  set (x := vsub (as_storage y') (as_storage z')) in *. assert (Hx : length x = n) by (unfold x; rewrite vsub_length; congruence).
  assert (HB : bare_form E fs valr x <= 0) by nra.
  assert (He : sumsq (effect E fs valr x f) = 0).
  { apply Rle_antisym; [|apply sumsq_nonneg]. eapply Rle_trans; [|exact HB]. unfold bare_form. apply (part_le (fun f => sumsq (effect E fs valr x f)) fs f Hin). intros; apply sumsq_nonneg. }
  apply sumsq_zero in He. rewrite (effect_length E fs Hok Hws valr Hlr x f Hx Hin) in He.
  pose proof (bare_stepped E fs RP CO Hok Hws valr Hlr z' valz y' valy x f Hz' Hy' ltac:(unfold x; rewrite sub_add; congruence) Hx Hin) as Hb. rewrite He in Hb.
  pose proof (bare_length E fs Hok Hws valz f (holds_legal E fs CO _ _ Hz') Hin) as Hbl. 
  assert (Hz0 : forall (u : list R) d, length u = d -> vadd u (vzero d) = u).
  { intros u d <-. clear. induction u as [|a u IH]; auto. change (vzero (length (a :: u))) with (0 :: vzero (length u)). rewrite vadd_cons, IH. f_equal. lra. }
  rewrite Hz0 in Hb by auto.
  unfold whitened_at. apply whiten_core.
  assert (Hn : noise_ok (f_noise f)) by apply (proj1 (Hok f Hin)).
  rewrite (proj1 (bare_ok (f_noise f) (residual_at E valz f) Hn (ws_residual E fs Hws valz f (holds_legal E fs CO _ _ Hz') Hin))).
  rewrite (proj1 (bare_ok (f_noise f) (residual_at E valy f) Hn (ws_residual E fs Hws valy f (holds_legal E fs CO _ _ Hy') Hin))). f_equal. unfold bare_at in Hb. auto.
Qed.
(* full rank *)
Lemma full_rank_close sigma0 s0 v0 A0 level : at_values E fs g s0 v0 -> compute_whitened_residual_jacobian E g (s_assign s0) (s_res s0) = Ok A0 -> 0 < sigma0 -> SpecCgLin.bounded_below sigma0 A0 ->
  exists K, 0 <= K /\ forall z valz y valy, assigns E fs z valz -> assigns E fs y valy -> least_loss E fs valz -> loss valy <= level -> distance2 fs valy valz <= K * (loss valy - loss valz).
Proof.
  destruct (posed_graph E fs WP) as (Hne & _ & Hrd & Hpd). pose proof WP as [CO Hok Hws _ _]. destruct (made E fs g Hok Eg) as (Hg & _).
  intros H0 EA0 Hs0 Hbb. destruct (at_fresh E fs g WP Eg s0 v0 H0) as (Hf0 & Hh0). destruct (jac_of E fs g CO Hok Hg Hne Hrd Hws s0 Hf0) as (A' & EA' & HA & Hsh & Hm & Hw). rewrite EA0 in EA'. injection EA' as <-.
  destruct (least_grows level) as (mu & valr & Hmu & Hlr & H). exists (/ (mu * sigma0)). split; [left; apply Rinv_0_lt_compat, Rmult_lt_0_compat; auto|].
  intros z valz y valy Hz Hy Lz Lvl. destruct (update_holds E CO fs z valz Hz) as (z' & _ & Hz'). destruct (update_holds E CO fs y valy Hy) as (y' & _ & Hy').
  pose proof (Lz y valy Hy) as Hle. specialize (H z' valz y' valy Hz' Hy' Lz ltac:(lra) Lvl).
  pose proof (pl_held_length E fs (rp_plain _ _ RP) CO _ _ Hz' : _ = n) as Llz. pose proof (pl_held_length E fs (rp_plain _ _ RP) CO _ _ Hy' : _ = n) as Lly.
  set (x := vsub (as_storage y') (as_storage z')) in *. assert (Hx : length x = n) by (unfold x; rewrite vsub_length; congruence).
  destruct (step_forms E fs g RP CO Hok Hg Hne Hrd Hws valr Hlr (s_assign s0) v0 (s_res s0) A0 x Hh0 Hw EA0 Hx) as (H1 & _).
  assert (H2 : sigma0 * sumsq x <= sumsq (mapply A0 x)) by (apply Hbb; [rewrite Hsh; auto | apply matmul_mapply; auto; rewrite Hsh; auto]).
  assert (Hd : distance2 fs valy valz = sumsq x). { rewrite <- (pl_distance E fs (rp_plain _ _ RP) CO _ _ _ _ Hy' Hz'). rewrite <- !norm_sq. unfold x. rewrite (PBasin5.norm_flip (as_storage z') (as_storage y')) by congruence. auto. }
  rewrite Hd. apply (Rmult_le_reg_l (mu * sigma0)); [apply Rmult_lt_0_compat; auto|]. replace (mu * sigma0 * (/ (mu * sigma0) * (loss valy - loss valz))) with (loss valy - loss valz) by (field; split; lra).
  apply Rle_trans with (mu * bare_form E fs valr x); auto. rewrite Rmult_assoc. apply Rmult_le_compat_l; lra.
Qed.
End Bundle.
