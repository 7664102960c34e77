(* Solver theorems over exact reals: step acceptance, damping, dogleg geometry, convergence tests. *)
From Coq Require Import List Arith Bool ZArith Lia Reals Lra Psatz Permutation.
From Verif Require Import Num NumR Py Arr MLayout MAssign MNoise MSparse MFactor MGraph MLinear MSolver SpecLayout SpecTree SpecAssign SpecGraph SpecSparse SpecSolver.
From Verif Require Import PBase PLayout PAssign PAssign2 PGraph PGraph2 PGraph4 PExGraph PVec PSparse PLinear PGraph5 PSolver PSolver2.
Import ListNotations.
Local Open Scope R_scope.

Lemma Rleb_ok a b : Rleb a b = true <-> a <= b.
Proof. unfold Rleb. destruct (Rle_dec a b); split; intros; auto; try discriminate; contradiction. Qed.
Lemma Rleb_no a b : Rleb a b = false <-> b < a.
Proof. unfold Rleb. destruct (Rle_dec a b); split; intros; auto; try discriminate; lra. Qed.
Lemma Rltb_ok a b : Rltb a b = true <-> a < b.
Proof. unfold Rltb. destruct (Rlt_dec a b); split; intros; auto; try discriminate; contradiction. Qed.
Lemma Rltb_no a b : Rltb a b = false <-> b <= a.
Proof. unfold Rltb. destruct (Rlt_dec a b); split; intros; auto; try discriminate; lra. Qed.

(* ---- C34 ---- *)
Lemma quality_decrease num den q qmin : 0 < qmin -> den < 0 -> q = num / den -> qmin <= q -> num < 0.
Proof.
  intros Hq Hd -> Hle. destruct (Rlt_le_dec num 0) as [|Hn]; auto. exfalso.
  assert (num / den <= 0); [|lra]. unfold Rdiv. assert (/ den < 0) by (apply Rinv_lt_0_compat; auto).
  rewrite <- (Rmult_0_r num). apply Rmult_le_compat_l; lra.
Qed.

Section Real.
Variable E : env R.
Let C := e_cls E.

Lemma accepted_decreases lin step qmin g s s' : trust_body E lin step qmin -> 0 < qmin -> step g s = Ok s' ->
  exists A d prop c r q Ad, trust_step E g qmin s s' A d prop c r q /\ matmul A d = Ok Ad /\
    (qmin <= q -> s_assign s' = prop /\ s_cost s' = c /\ (sumsq (vadd Ad (s_res s)) < s_cost s -> s_cost s' < s_cost s)) /\
    (q < qmin -> s_assign s' = s_assign s /\ s_cost s' = s_cost s).
Proof.
  intros Hb Hq H. destruct (trust_body_step E _ _ _ _ _ _ Hb H) as (A & d & prop & c & r & q & Ht).
  pose proof Ht as [HA Hp Hc Hs Ha Hr _ _]. destruct Hs as (Ad & EA & Hs). exists A, d, prop, c, r, q, Ad. split; [auto|]. split; [auto|]. rn. split; intros Hle.
  - destruct (Ha (proj2 (Rleb_ok _ _) Hle)) as (H1 & H2). split; [auto|]. split; [auto|]. intros Hm. rewrite H2.
    enough (c - s_cost s < 0) by lra. apply (quality_decrease _ (sumsq (vadd Ad (s_res s)) - s_cost s) q qmin); auto; lra.
  - apply Hr. apply Rleb_no. auto.
Qed.

Lemma vsub_neg_add (a r : list R) : length a = length r -> vsub a (vneg r) = vadd a r.
Proof.
  revert r. induction a as [|x a IH]; intros [|y r]; simpl; intros H; try discriminate; auto.
  rewrite vsub_cons, vadd_cons. f_equal; [unfold nneg; simpl; lra | apply IH; lia].
Qed.
Lemma sumsq_neg (r : list R) : sumsq (vneg r) = sumsq r.
Proof. induction r as [|x r IH]; simpl; auto. rewrite sumsq_cons. change (vneg (x :: r)) with (- x :: vneg r). rewrite sumsq_cons, IH. lra. Qed.

Lemma normal_strict (A : coo R) beta rhs x : coo_ok A -> 0 < beta -> length rhs = fst (m_shape A) ->
  normal_ok A beta (mapply (transpose A) rhs) x ->
  sumsq (vsub (mapply A x) rhs) = sumsq rhs - sumsq (mapply A x) - 2 * (beta * sumsq x).
Proof.
  intros Hok Hb Hr Hn. pose proof Hn as (Hx & Ex).
  assert (Hlb : length (mapply (transpose A) rhs) = snd (m_shape A)) by apply mapply_length.
  assert (Hw := proj1 (normal_weak A beta Hok (mapply (transpose A) rhs) x Hlb Hx) Hn x Hx).
  rewrite sumsq_sub by (rewrite mapply_length; auto). rewrite mapply_adjoint by auto. rewrite (sumsq_dot x).
  rewrite <- sumsq_dot in Hw. lra.
Qed.

Lemma lm_prediction fs g val cfg s s' : (forall f, In f fs -> factor_ok f) -> graph_make E fs = Ok g ->
  assigns E fs (s_assign s) val -> (forall f, In f fs -> residual_shape_ok E val f) ->
  (forall f, In f fs -> jacobian_shape_ok E val f) -> total residual_dim fs <> 0%nat ->
  current E g s -> 0 < s_extra s + Rlit 1 100000 -> 0 < lm_quality_min cfg ->
  lm_step E cfg cholmod_solve g s = Ok s' ->
  exists A ATb d prop c r q Ad, trust_step E g (lm_quality_min cfg) s s' A d prop c r q /\
    matmul (transpose A) (vneg (s_res s)) = Ok ATb /\ cholmod_solve A ATb (s_extra s) (s_iter s) = Ok d /\ matmul A d = Ok Ad /\
    sumsq (vadd Ad (s_res s)) <= s_cost s /\
    (ATb <> vzero (length ATb) -> sumsq (vadd Ad (s_res s)) < s_cost s /\ s_cost s' <= s_cost s).
Proof.
  intros Hok Hg Ha Hrs Hjs Hpos Hc Hl Hq H. destruct (made E fs g Hok Hg) as (Hgr & Hne).
  destruct (lm_tr E _ _ _ _ _ H) as (A & ATb & d & prop & c & r & q & Ht & Eb & Ed & _).
  destruct (residual_vector_ok E fs g _ val Hok Hne Hgr Ha Hrs) as (ws & Hws & Ev).
  pose proof Hc as Hc'. unfold current, compute_cost in Hc'. rewrite Ev in Hc'. cbn [bind] in Hc'. injection Hc' as Hc1 Hc2.
  assert (Hlen : length (s_res s) = total residual_dim fs).
  { rewrite <- Hc2. destruct (residual_vector_ok E fs g _ val Hok Hne Hgr Ha Hrs) as (ws' & Hws' & Ev').
    rewrite Hws in Hws'. injection Hws' as <-. 
    rewrite <- (total_perm residual_dim _ _ (kgroups_perm fs)). clear - Hws Hok Hrs.
    assert (G : forall l ws, (forall f, In f l -> In f fs) -> traverse (whitened_at E val) l = Ok ws -> length (concat ws) = total residual_dim l).
    { induction l as [|f l IH]; intros us Hin Hu; simpl in Hu; [injection Hu as <-; auto|].
      destruct (whitened_at_ok E val f) as (w & Ew & Hw); [apply Hok, Hin; left; auto | apply Hrs, Hin; left; auto|].
      rewrite Ew in Hu. cbn [bind] in Hu. destruct (traverse (whitened_at E val) l) as [us'|] eqn:Eu; cbn [bind] in Hu; [|discriminate].
      injection Hu as <-. simpl. assert (IHu := IH us' (fun f' Hf' => Hin f' (or_intror Hf')) eq_refl). rewrite app_length. lia. }
    apply G; auto. intros f Hf. apply (Permutation_in _ (kgroups_perm fs)); auto. }
  destruct (jacobian_action E fs g (s_assign s) (s_res s) val Hok Hjs Hgr Ha Hlen Hpos) as (A' & EA & HA & Hsh & _).
  pose proof (tr_A _ _ _ _ _ _ _ _ _ _ _ Ht) as EA'. rewrite EA in EA'. injection EA' as ->.
  assert (Hfst : fst (m_shape A) = length (s_res s)) by (rewrite Hsh, Hlen; auto).
  rewrite matmul_mapply in Eb by (try apply transpose_ok; auto; rewrite vneg_length; unfold transpose; cbn [m_shape snd]; lia).
  injection Eb as Eb. assert (HlATb : length ATb = snd (m_shape A)) by (rewrite <- Eb; apply mapply_length).
  destruct (cholmod_solve_ok A ATb (s_extra s) (s_iter s) HA Hl HlATb) as (x & Ex & Hx). rewrite Ed in Ex. injection Ex as <-.
  rewrite <- Eb in Hx. assert (Hln : length (vneg (s_res s)) = fst (m_shape A)) by (rewrite vneg_length; auto).
  pose proof (normal_strict A _ _ d HA Hl Hln Hx) as Hst. destruct (normal_descent A _ _ d HA Hl Hln Hx) as (Hz & _ & _).
  rewrite vsub_neg_add in Hst by (rewrite mapply_length; auto). rewrite sumsq_neg in Hst.
  assert (HAd : matmul A d = Ok (mapply A d)) by (apply matmul_mapply; auto; apply Hx).
  exists A, ATb, d, prop, c, r, q, (mapply A d). split; [auto|]. split; [rewrite <- Eb; apply matmul_mapply; [apply transpose_ok; auto|]; rewrite vneg_length; unfold transpose; cbn [m_shape snd]; lia|].
  split; [auto|]. split; [auto|]. assert (Hcs : s_cost s = sumsq (s_res s)) by (rewrite <- Hc1, Hc2; auto).
  rewrite Hst, Hcs. pose proof (sumsq_nonneg (mapply A d)). pose proof (sumsq_nonneg d).
  assert (0 <= (s_extra s + Rlit 1 100000) * sumsq d) by (apply Rmult_le_pos; lra). split; [lra|].
  intros Hnz. assert (Hd : 0 < sumsq d).
  { destruct (Req_dec (sumsq d) 0) as [Hd0|]; [|lra]. exfalso. apply Hnz. apply sumsq_zero in Hd0. rewrite HlATb, <- Eb. apply Hz.
    rewrite Hd0. f_equal. apply Hx. }
  assert (0 < (s_extra s + Rlit 1 100000) * sumsq d) by (apply Rmult_lt_0_compat; lra). split; [lra|].
  pose proof Ht as [_ _ _ Hsq Hac Hre _ _]. rewrite <- Hcs. rn. destruct (Rle_lt_dec (lm_quality_min cfg) q) as [Hle|Hlt].
  - destruct (Hac (proj2 (Rleb_ok _ _) Hle)) as (_ & ->). destruct Hsq as (Ad & EAd & Hsq). rewrite HAd in EAd. injection EAd as <-. rn.
    enough (c - s_cost s < 0) by lra.
    apply (quality_decrease _ (sumsq (vadd (mapply A d) (s_res s)) - s_cost s) q (lm_quality_min cfg)); auto. rewrite Hst, Hcs. lra.
  - destruct (Hre (proj2 (Rleb_no _ _) Hlt)) as (_ & ->). lra.
Qed.

(* ---- C35 ---- *)
Lemma lm_lambda_invariant cfg lin g s0 : 0 < lambda_min cfg -> lambda_min cfg <= lambda_max cfg -> 1 < lambda_factor cfg ->
  0 < lambda_initial cfg -> lambda_initial cfg <= lambda_max cfg -> s_extra s0 = lambda_initial cfg ->
  (forall k s, runs (lm_step E cfg lin g) k s0 s -> 0 < s_extra s <= lambda_max cfg) /\
  (forall s s', lm_step E cfg lin g s = Ok s' -> exists A d prop c r q, trust_step E g (lm_quality_min cfg) s s' A d prop c r q /\
     (lm_quality_min cfg <= q -> s_extra s' = s_extra s / lambda_factor cfg) /\
     (q < lm_quality_min cfg -> s_extra s' = Rmax (lambda_min cfg) (Rmin (s_extra s * lambda_factor cfg) (lambda_max cfg)) /\
        lambda_min cfg <= s_extra s' <= lambda_max cfg)).
Proof.
  intros H1 H2 H3 H4 H5 H0.
  assert (Hstep : forall s s', lm_step E cfg lin g s = Ok s' -> exists A d prop c r q, trust_step E g (lm_quality_min cfg) s s' A d prop c r q /\
     (lm_quality_min cfg <= q -> s_extra s' = s_extra s / lambda_factor cfg) /\
     (q < lm_quality_min cfg -> s_extra s' = Rmax (lambda_min cfg) (Rmin (s_extra s * lambda_factor cfg) (lambda_max cfg)) /\
        lambda_min cfg <= s_extra s' <= lambda_max cfg)).
  { intros s s' H. destruct (lm_tr E _ _ _ _ _ H) as (A & ATb & d & prop & c & r & q & Ht & _ & _ & Hex & _).
    exists A, d, prop, c, r, q. split; [auto|]. rewrite Hex. unfold lm_lambda. rn. split; intros Hq.
    - rewrite (proj2 (Rleb_ok _ _) Hq). auto.
    - rewrite (proj2 (Rleb_no _ _) Hq). split; [reflexivity|]. unfold Rmax, Rmin. repeat destruct (Rle_dec _ _); lra. }
  split; auto. intros k s Hr. apply (runs_ind_inv (lm_step E cfg lin g) (fun s => 0 < s_extra s <= lambda_max cfg)) with (k := k) (s := s0); auto; [|lra].
  clear - Hstep H1 H2 H3. intros s s' (Hp & Hm) H. destruct (Hstep _ _ H) as (A & d & prop & c & r & q & _ & Ha & Hr).
  destruct (Rle_lt_dec (lm_quality_min cfg) q) as [Hle|Hlt].
  - rewrite (Ha Hle). assert (Hi : 0 < / lambda_factor cfg < 1) by (split; [apply Rinv_0_lt_compat; lra | rewrite <- Rinv_1; apply Rinv_lt_contravar; lra]).
    unfold Rdiv. split; [apply Rmult_lt_0_compat; lra|]. apply Rle_trans with (s_extra s * 1); [apply Rmult_le_compat_l; lra | lra].
  - pose proof (Hr Hlt). lra.
Qed.

(* ---- C36 ---- *)
Lemma vnorm_sq (x : list R) : 0 <= vnorm x /\ vnorm x * vnorm x = sumsq x.
Proof. unfold vnorm. rn. split; [apply sqrt_pos | apply sqrt_sqrt, sumsq_nonneg]. Qed.
Lemma vnorm_eq (x : list R) r : 0 <= r -> sumsq x = r * r -> vnorm x = r.
Proof. intros Hr H. unfold vnorm. rn. rewrite H. apply sqrt_square; auto. Qed.

Lemma blend_root c bma k : 0 < bma -> 0 < k ->
  let sq := sqrt (c * c + bma * k) in
  let beta := (- c + sq) / bma in
  dogleg_beta c bma k = beta /\ beta = k / (c + sq) /\ 0 < beta /\ bma * (beta * beta) + 2 * c * beta = k.
Proof.
  intros Hb Hk sq beta. assert (Hbk : 0 < bma * k) by (apply Rmult_lt_0_compat; auto).
  assert (Hsq : sq * sq = c * c + bma * k) by (apply sqrt_sqrt; nra). assert (Hs0 : 0 <= sq) by apply sqrt_pos.
  assert (Hp : 0 < c + sq) by nra. assert (Hm : 0 < - c + sq) by nra.
  assert (He : beta = k / (c + sq)).
  { unfold beta. apply (Rmult_eq_reg_r (bma * (c + sq))); [|nra]. field_simplify; [nra | lra | lra]. }
  assert (Hbb : bma * beta = - c + sq) by (unfold beta; field; lra).
  split; [|split; [auto|split]].
  - unfold dogleg_beta. rn. fold sq. destruct (Rleb c 0); [reflexivity | symmetry; exact He].
  - unfold beta. apply Rdiv_lt_0_compat; auto.
  - replace (bma * (beta * beta) + 2 * c * beta) with ((bma * beta + 2 * c) * beta) by ring. rewrite Hbb.
    replace (- c + sq + 2 * c) with (c + sq) by ring. rewrite He. field. lra.
Qed.

Lemma vsum_vmul (a b : list R) : vsum (vmul a b) = vdot a b. Proof. reflexivity. Qed.

Lemma dogleg_step_ok sd Asd gn radius : 0 < radius -> length sd = length gn -> sumsq Asd <> 0 \/ vnorm gn <= radius ->
  let a := vscale (sumsq sd / sumsq Asd) sd in
  let step := dogleg_step_of sd Asd gn radius in
  let c := vdot a (vsub gn a) in
  let bma := sumsq (vsub gn a) in
  let k := radius * radius - sumsq a in
  vnorm step <= radius /\
  (vnorm gn <= radius -> step = gn) /\
  (radius < vnorm gn -> vnorm step = radius) /\
  (radius < vnorm gn -> radius <= vnorm a -> step = vscale (radius / vnorm a) a) /\
  (radius < vnorm gn -> vnorm a < radius -> exists beta, 0 < beta <= 1 /\ step = vadd a (vscale beta (vsub gn a)) /\
     beta = (- c + sqrt (c * c + bma * k)) / bma /\ beta = k / (c + sqrt (c * c + bma * k))).
Proof.
  intros Hr Hlen _ a step c bma k. subst step. unfold dogleg_step_of. rn. fold a. rewrite vsum_vmul. fold c bma k.
  assert (Hla : length a = length gn) by (unfold a; rewrite vscale_length; auto).
  destruct (vnorm_sq a) as (Ha0 & Ha2). destruct (vnorm_sq gn) as (Hg0 & Hg2).
  destruct (Rleb (vnorm gn) radius) eqn:E1.
  { apply Rleb_ok in E1. repeat split; auto; intros; lra. }
  apply Rleb_no in E1. destruct (Rleb radius (vnorm a)) eqn:E2.
  { apply Rleb_ok in E2. assert (Hn : vnorm (vscale (radius / vnorm a) a) = radius).
    { apply vnorm_eq; [lra|]. rewrite sumsq_scale, <- Ha2. field. lra. }
    rewrite Hn. repeat split; auto; intros; try lra. }
  apply Rleb_no in E2.
  assert (Hk : 0 < k) by (unfold k; nra).
  assert (Hexp : sumsq gn = sumsq a + 2 * c + bma).
  { replace gn with (vadd a (vsub gn a)) at 1.
    - rewrite sumsq_add by (rewrite vsub_length; auto). reflexivity.
    - apply (nth_ext' _ _ 0). rewrite vadd_length; rewrite ?vsub_length; auto. intros i Hi.
      rewrite nth_vadd by (rewrite vsub_length; auto). rewrite nth_vsub by auto. lra. }
  assert (Hb0 : 0 <= bma) by apply sumsq_nonneg.
  assert (Hb : 0 < bma).
  { destruct (Req_dec bma 0) as [Hz|]; [|lra]. exfalso. assert (c = 0).
    { unfold c. unfold bma in Hz. apply sumsq_zero in Hz. rewrite Hz. apply vdot_zero_r. }
    assert (sumsq gn = sumsq a) by lra. nra. }
  destruct (blend_root c bma k Hb Hk) as (H1 & H2 & H3 & H4). rewrite H1. set (beta := (- c + sqrt (c * c + bma * k)) / bma) in *.
  assert (Hn : vnorm (vadd a (vscale beta (vsub gn a))) = radius).
  { apply vnorm_eq; [lra|]. rewrite sumsq_add by (rewrite vscale_length, vsub_length; auto).
    rewrite vdot_scale_r, sumsq_scale. fold c bma. unfold k in H4. lra. }
  rewrite Hn. repeat split; auto; intros; try lra. exists beta. repeat split; auto.
  destruct (Rle_lt_dec beta 1) as [|Hgt]; auto. exfalso.
  assert (k < bma + 2 * c) by (unfold k; nra). assert (0 < (beta - 1) * (bma * (beta + 1) + 2 * c)); [|nra].
  apply Rmult_lt_0_compat; nra.
Qed.

Lemma steepest_defined (A : coo R) rhs : coo_ok A -> length rhs = fst (m_shape A) ->
  mapply (transpose A) rhs <> vzero (snd (m_shape A)) ->
  let sd := mapply (transpose A) rhs in
  0 < sumsq (mapply A sd) /\
  forall t, sumsq (vsub (mapply A (vscale (sumsq sd / sumsq (mapply A sd)) sd)) rhs) <= sumsq (vsub (mapply A (vscale t sd)) rhs).
Proof.
  intros Hok Hr Hne sd. assert (Hl : length sd = snd (m_shape A)) by apply mapply_length.
  assert (Hadj : vdot (mapply A sd) rhs = sumsq sd) by (rewrite mapply_adjoint by auto; rewrite sumsq_dot; auto).
  assert (Hs : 0 < sumsq sd) by (rewrite sumsq_dot; apply (dot_pos (snd (m_shape A))); auto).
  assert (Hp : 0 < sumsq (mapply A sd)).
  { pose proof (sumsq_nonneg (mapply A sd)). destruct (Req_dec (sumsq (mapply A sd)) 0) as [Hz|]; [|lra].
    apply sumsq_zero in Hz. rewrite Hz, vdot_zero_l in Hadj. lra. }
  split; auto. intros t.
  assert (Hq : forall u, sumsq (vsub (mapply A (vscale u sd)) rhs) = u * u * sumsq (mapply A sd) - 2 * u * sumsq sd + sumsq rhs).
  { intros u. rewrite mapply_scale by auto. rewrite sumsq_sub by (rewrite vscale_length, mapply_length; auto).
    rewrite sumsq_scale, vdot_scale_l, Hadj. lra. }
  rewrite !Hq. set (p := sumsq (mapply A sd)) in *. set (q := sumsq sd) in *.
  assert (He : q / p * p = q) by (field; lra).
  set (u := q / p) in *. clearbody u q. subst q.
  assert (0 <= p * ((t - u) * (t - u))) by (apply Rmult_le_pos; [lra | apply Rle_0_sqr]). rewrite <- He. lra.
Qed.

Lemma dogleg_in_region (A : coo R) rhs gn radius ATb Asd : coo_ok A -> length rhs = fst (m_shape A) -> length gn = snd (m_shape A) ->
  0 < radius -> matmul (transpose A) rhs = Ok ATb -> matmul A ATb = Ok Asd ->
  (ATb <> vzero (snd (m_shape A)) -> 0 < sumsq Asd /\
     forall t At, matmul A (vscale t ATb) = Ok At -> exists Aa, matmul A (vscale (sumsq ATb / sumsq Asd) ATb) = Ok Aa /\
       sumsq (vsub Aa rhs) <= sumsq (vsub At rhs)) /\
  (ATb <> vzero (snd (m_shape A)) \/ vnorm gn <= radius ->
   let a := vscale (sumsq ATb / sumsq Asd) ATb in
   let step := dogleg_step_of ATb Asd gn radius in
   let c := vdot a (vsub gn a) in
   let bma := sumsq (vsub gn a) in
   let k := radius * radius - sumsq a in
   vnorm step <= radius /\
   (vnorm gn <= radius -> step = gn) /\
   (radius < vnorm gn -> vnorm step = radius) /\
   (radius < vnorm gn -> radius <= vnorm a -> step = vscale (radius / vnorm a) a) /\
   (radius < vnorm gn -> vnorm a < radius -> exists beta, 0 < beta <= 1 /\ step = vadd a (vscale beta (vsub gn a)) /\
      beta = (- c + sqrt (c * c + bma * k)) / bma /\ beta = k / (c + sqrt (c * c + bma * k)))).
Proof.
  intros Hok Hr Hgn Hrad EA EAs.
  rewrite matmul_mapply in EA by (try apply transpose_ok; auto). injection EA as EA.
  assert (Hl : length ATb = snd (m_shape A)) by (rewrite <- EA; apply mapply_length).
  rewrite matmul_mapply in EAs by auto. injection EAs as EAs.
  assert (Hsd : ATb <> vzero (snd (m_shape A)) -> 0 < sumsq Asd /\
     forall t, sumsq (vsub (mapply A (vscale (sumsq ATb / sumsq Asd) ATb)) rhs) <= sumsq (vsub (mapply A (vscale t ATb)) rhs)).
  { intros Hne. rewrite <- EAs, <- EA in *. apply (steepest_defined A rhs); auto. }
  split.
  - intros Hne. destruct (Hsd Hne) as (H1 & H2). split; auto. intros t At Ht.
    rewrite matmul_mapply in Ht by (auto; rewrite vscale_length; auto). injection Ht as <-.
    eexists. split; [apply matmul_mapply; auto; rewrite vscale_length; auto | apply H2].
  - intros Hd. apply dogleg_step_ok; auto; [congruence|]. destruct Hd as [Hne|Hd]; [left | right; auto].
    destruct (Hsd Hne). lra.
Qed.

(* ---- C37 ---- *)
Lemma dogleg_radius_ok radius q step : 0 < radius ->
  let r' := dogleg_radius radius q step in
  0 < r' /\ (q < 1 / 4 -> r' = radius / 2) /\ (1 / 4 <= q -> radius <= r') /\
  (1 / 4 <= q <= 3 / 4 -> r' = radius) /\ (3 / 4 < q -> r' = Rmax radius (3 * vnorm step)).
Proof.
  intros Hr r'. subst r'. unfold dogleg_radius. rn. unfold Rlit.
  destruct (Rltb q (IZR 1 / IZR 4)) eqn:E1; [apply Rltb_ok in E1 | apply Rltb_no in E1].
  - replace (IZR 2 / IZR 1) with 2 by field. repeat split; intros; lra.
  - destruct (Rltb (IZR 3 / IZR 4) q) eqn:E2; [apply Rltb_ok in E2 | apply Rltb_no in E2].
    + replace (IZR 3 / IZR 1) with 3 by field. pose proof (Rmax_l radius (3 * vnorm step)). repeat split; intros; try lra.
    + repeat split; intros; lra.
Qed.
Lemma dogleg_radius_positive cfg lin g s0 : 0 < radius_initial cfg -> s_extra s0 = radius_initial cfg ->
  (forall k s, runs (dl_step E cfg lin g) k s0 s -> 0 < s_extra s) /\
  (forall k s s', runs (dl_step E cfg lin g) k s0 s -> dl_step E cfg lin g s = Ok s' ->
     exists A d prop c r q, trust_step E g (dl_quality_min cfg) s s' A d prop c r q /\
     (q < 1 / 4 -> s_extra s' = s_extra s / 2) /\ (1 / 4 <= q -> s_extra s <= s_extra s') /\
     (1 / 4 <= q <= 3 / 4 -> s_extra s' = s_extra s) /\ (3 / 4 < q -> s_extra s' = Rmax (s_extra s) (3 * vnorm d))).
Proof.
  intros Hi H0.
  assert (Hpos : forall k s, runs (dl_step E cfg lin g) k s0 s -> 0 < s_extra s).
  { intros k s Hr. apply (runs_ind_inv (dl_step E cfg lin g) (fun s => 0 < s_extra s)) with (k := k) (s := s0); auto; [|lra].
    intros s1 s2 Hp H. destruct (dl_tr E _ _ _ _ _ H) as (A & ATb & gn & Asd & d & prop & c & r & q & Ht & _ & _ & _ & _ & Hex & _).
    rewrite Hex. apply (dogleg_radius_ok _ _ _ Hp). }
  split; auto. intros k s s' Hr H. pose proof (Hpos _ _ Hr) as Hp.
  destruct (dl_tr E _ _ _ _ _ H) as (A & ATb & gn & Asd & d & prop & c & r & q & Ht & _ & _ & _ & _ & Hex & _).
  exists A, d, prop, c, r, q. split; auto. rewrite Hex. apply (dogleg_radius_ok _ _ _ Hp).
Qed.

(* ---- C38 ---- *)
Lemma vmax_lt (l : list R) x t : vmax x l < t <-> x < t /\ Forall (fun y => y < t) l.
Proof.
  induction l as [|y l IH]; simpl; [split; [auto | tauto]|]. change (fold_right nmax x l) with (vmax x l). rn.
  rewrite Forall_cons_iff. assert (Hm : Rmax y (vmax x l) < t <-> y < t /\ vmax x l < t) by (unfold Rmax; destruct (Rle_dec y (vmax x l)); lra).
  rewrite Hm. tauto.
Qed.
Lemma vnorm_abs (x : list R) : vnorm (map nabs x) = vnorm x.
Proof.
  unfold vnorm. f_equal. induction x as [|a x IH]; auto. change (map nabs (a :: x)) with (Rabs a :: map nabs x). rewrite !sumsq_cons, IH. f_equal. rn.
  rewrite <- Rabs_mult. apply Rabs_pos_eq, Rle_0_sqr.
Qed.
Lemma convergence_meaning cfg st cost' delta ng b : check_convergence E cfg st cost' delta ng = Ok b ->
  exists a', manifold_retract (e_cls E) (s_assign st) (mkAssign ng (as_layout delta)) = Ok a' /\
  (b = true <->
    Rabs (cost' - s_cost st) / s_cost st < cost_tolerance cfg \/
    ((gradient_start cfg <= Z.of_nat (s_iter st))%Z /\
     forall i, (i < length (as_storage (s_assign st)))%nat ->
       nth i (as_storage (s_assign st)) 0 - nth i (as_storage a') 0 < gradient_tolerance cfg) \/
    sqrt (sumsq (as_storage delta)) < (sqrt (sumsq (as_storage (s_assign st))) + parameter_tolerance cfg) * parameter_tolerance cfg).
Proof.
  intros H. unfold check_convergence, converged_gradient in H. fold C in H. apply bind_ok in H. destruct H as (cg & Hg & H).
  apply bind_ok in Hg. destruct Hg as (a' & Ea & Hg). exists a'. split; auto.
  pose proof (retract_length E _ _ _ Ea) as Hlen. injection H as <-. rewrite !orb_true_iff.
  unfold converged_cost, converged_parameters. 
  assert (Hab : sqrt (sumsq (map Rabs (as_storage delta))) = sqrt (sumsq (as_storage delta))) by exact (vnorm_abs (as_storage delta)).
  unfold vnorm. rn. rewrite Hab. rewrite !Rltb_ok, or_assoc.
  enough (Hc : cg = true <-> (gradient_start cfg <= Z.of_nat (s_iter st))%Z /\
     forall i, (i < length (as_storage (s_assign st)))%nat ->
       nth i (as_storage (s_assign st)) 0 - nth i (as_storage a') 0 < gradient_tolerance cfg) by tauto.
  assert (Hl : length (vsub (as_storage (s_assign st)) (as_storage a')) = length (as_storage (s_assign st))) by (apply vsub_length; auto).
  destruct (vsub (as_storage (s_assign st)) (as_storage a')) as [|x l] eqn:Ev; [discriminate|]. injection Hg as <-.
  rewrite andb_true_iff, Z.leb_le, Rltb_ok, vmax_lt. apply and_iff_compat_l.
  assert (Hf : (x < gradient_tolerance cfg /\ Forall (fun y => y < gradient_tolerance cfg) l) <->
               Forall (fun y => y < gradient_tolerance cfg) (vsub (as_storage (s_assign st)) (as_storage a')))
    by (rewrite Ev, Forall_cons_iff; tauto).
  rewrite Hf, (Forall_nth). rewrite <- Ev in Hl. rewrite Hl. split.
  - intros Hi i Hlt. rewrite <- nth_vsub by auto. apply Hi; auto.
  - intros Hi i d Hlt. rewrite (nth_indep _ d 0) by lia. rewrite nth_vsub by auto. auto.
Qed.
End Real.
