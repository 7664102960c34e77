(* Solves that start close to poses at which all measurements hold, with the reason why they stopped. *)
From Coq Require Import List Arith Bool ZArith Lia Permutation Reals Lra Psatz.
From Verif Require Import Num NumR Py Arr MLayout MAssign MNoise MSparse MFactor MGraph MLinear MSolver MLie MPose SpecLayout SpecTree SpecAssign SpecNoise SpecGraph SpecSparse SpecLie SpecPose SpecZero SpecSpatial SpecTwin SpecInv SpecOrder SpecSolver SpecLin SpecLocal SpecBook SpecNear SpecBasin SpecPoseStop.
From Verif Require Import PBase PLayout PAssign PGraph PGraph2 PGraph3 PVec PSparse PLinear PLie PPose PFrame PSolver PSolver2 PSolverR PNoise PDescent PTotal PLocal PLin PLinDl PLinCg POrder PHold PInv PTwin2 PFree PZero PJacZero PNear PExGraph PBook PExInv PExLinDl PExLocal PExHalt PBasin4 PBasin5 PBasin7 PBasin8 PBasin9 PBasin10 PBasin11 PBasin12 PFinish PPoseStop.
Import ListNotations.
Local Open Scope R_scope.

Section Loop.
Variable groups : vty -> lie_ops R (list R).
Variable fs : list (factor R).
Variable z : var -> pytree R.
Variable g : graph R.
Hypothesis SB : solved_by groups fs z.
Let E := pose_env groups.
Hypothesis WP : well_posed E fs.
Hypothesis Eg : graph_make E fs = Ok g.
Let C := e_cls E.
Let L := graph_layout E fs true.

(* why an iteration from s, with step xi and proposed values p, is the last one *)
Definition tests (cfg : term_cfg R) (s : sstate R) (val : var -> pytree R) (xi : var -> list R) (p : var -> pytree R) : Prop :=
  (max_iterations cfg - 1 <= Z.of_nat (s_iter s))%Z \/ (gradient_start cfg <= Z.of_nat (s_iter s))%Z \/
  Rabs (cost_at E fs p - cost_at E fs val) / cost_at E fs val < cost_tolerance cfg \/
  size fs xi < (vnorm (as_storage (s_assign s)) + parameter_tolerance cfg) * parameter_tolerance cfg.

Lemma gn_near cfg s s' val : carries E fs g s val val -> gn_step E cfg cholmod_solve g s = Ok s' ->
  exists xi p, damped_step E fs (1 / 100000) val val xi /\ moved E fs val xi p /\ carries E fs g s' p p /\ s_iter s' = S (s_iter s) /\ (s_done s' = true -> tests cfg s val xi p).
Proof.
  intros Hc H. unfold gn_step in H. apply bind_ok in H. destruct H as (((b & d) & a') & Hu & H). apply bind_ok in H. destruct H as ((c & r) & Ec & H).
  apply bind_ok in H. destruct H as (conv & Hconv & H). injection H as <-. cbn [fst snd] in *.
  destruct (linearise E fs g WP Eg s val val Hc) as (A & HL). unfold gn_update in Hu. rewrite (ls_jac _ _ _ _ _ _ _ HL) in Hu. cbn [bind] in Hu.
  assert (Lr : length (s_res s) = fst (m_shape A)) by (rewrite (sy_rows E fs g s val val A HL); apply (ls_res _ _ _ _ _ _ _ HL)).
  rewrite matmul_mapply in Hu; [|apply transpose_ok, (ls_ok _ _ _ _ _ _ _ HL) | cbn; auto]. cbn [bind] in Hu.
  rewrite neg_gradient in Hu by (auto; apply (ls_ok _ _ _ _ _ _ _ HL)). apply bind_ok in Hu. destruct Hu as (x & Ex & Hu). apply bind_ok in Hu. destruct Hu as (a1 & Er & Hu). injection Hu as _ <- <-.
  change n0 with 0 in Ex. destruct (solved_damped E fs g s val val A HL 0 (s_iter s) x) as (Hx & _ & Hd); auto; [lra|]. rewrite Rplus_0_l in Hd.
  destruct (went_to E fs g WP Eg s val val A HL x a1 Hx Er) as (val' & Hh & _ & Hm). exists (block C L x), val'. split; auto. split; auto. split; [apply (holds_carries E fs g WP Eg _ _ c); auto|]. split; [cbn [s_iter]; lia|].
  cbn [s_done]. intros Hdn. destruct (cost_book E fs g WP Eg _ _ Hh) as (Ec' & _). rewrite Ec in Ec'. injection Ec' as -> _. destruct Hc as (_ & _ & Hcost & _).
  pose proof (tests_say E cfg s _ _ _ _ Hconv Hdn) as HT. unfold tests. unfold C, L. rewrite (extent_block E fs x Hx). rewrite <- Hcost. exact HT.
Qed.

(* Levenberg-Marquardt, and Dogleg when the Gauss-Newton step is inside the region *)
Lemma trust_near cfg qmin s s' val old A x prop c r q ex conv ng : carries E fs g s val old -> linearised E fs g s val old A -> length x = l_dim L ->
  trust_step E g qmin s s' A x prop c r q -> s_extra s' = ex q (Rleb qmin q) ->
  check_convergence E cfg s c (mkAssign x (g_local_layout g)) ng = Ok conv -> s_done s' = (exceeded_max_iterations cfg s || (nleb qmin q && conv)) ->
  exists p b' p', moved E fs val (block C L x) p /\ decided E fs qmin val old (block C L x) p ex b' /\ carries E fs g s' (b_val b') (b_old b') /\ s_extra s' = b_extra b' /\
    s_iter s' = S (s_iter s) /\ moved E fs val (block C L x) p' /\ (s_done s' = true -> tests cfg s val (block C L x) p').
Proof.
  intros Hc HL Hx Ht He Hconv Hdone. destruct (decide E fs g WP Eg s s' val old A x prop c r q qmin ex Hc HL Hx Ht He) as (p & b' & D1 & D2 & D3 & D4 & _).
  destruct (went_to E fs g WP Eg s val old A HL x prop Hx (tr_prop _ _ _ _ _ _ _ _ _ _ _ Ht)) as (p' & Hh & _ & Hm). exists p, b', p'. do 4 (split; auto). split; [apply Ht|]. split; auto. rewrite Hdone. intros Hdn.
  destruct (cost_book E fs g WP Eg _ _ Hh) as (Ec' & _). rewrite (tr_cost _ _ _ _ _ _ _ _ _ _ _ Ht) in Ec'. injection Ec' as -> _. destruct Hc as (_ & _ & Hcost & _).
  assert (Hdn' : exceeded_max_iterations cfg s || conv = true) by (destruct (exceeded_max_iterations cfg s); auto; cbn [orb] in *; apply andb_true_iff in Hdn; apply Hdn).
  pose proof (tests_say E cfg s _ _ _ _ Hconv Hdn') as HT. unfold tests. unfold C, L. rewrite (extent_block E fs x Hx). rewrite <- Hcost. exact HT.
Qed.
Lemma lm_near cfg s s' val old : carries E fs g s val old -> 0 < s_extra s -> lm_step E cfg cholmod_solve g s = Ok s' ->
  exists xi p b' p', damped_step E fs (s_extra s + 1 / 100000) val old xi /\ moved E fs val xi p /\
    decided E fs (lm_quality_min cfg) val old xi p (fun _ accept => if accept then s_extra s / lambda_factor cfg else Rmax (lambda_min cfg) (Rmin (s_extra s * lambda_factor cfg) (lambda_max cfg))) b' /\
    carries E fs g s' (b_val b') (b_old b') /\ s_extra s' = b_extra b' /\ s_iter s' = S (s_iter s) /\ moved E fs val xi p' /\ (s_done s' = true -> tests (lm_term cfg) s val xi p').
Proof.
  intros Hc Hl H. destruct (linearise E fs g WP Eg s val old Hc) as (A & HL). destruct (lm_tr E cfg _ g s s' H) as (A0 & ATb & x & prop & c & r & q & Ht & Eb & Ex & Ee & conv & Hconv & Hdone).
  destruct (trust_system E fs g _ _ _ _ _ _ _ _ _ _ _ _ _ HL Ht Eb) as (-> & ->). destruct (solved_damped E fs g s val old A HL (s_extra s) (s_iter s) x) as (Hx & _ & Hd); auto; [lra|].
  set (ex := fun (_ : R) (accept : bool) => if accept then s_extra s / lambda_factor cfg else Rmax (lambda_min cfg) (Rmin (s_extra s * lambda_factor cfg) (lambda_max cfg))).
  destruct (trust_near (lm_term cfg) (lm_quality_min cfg) s s' val old A x prop c r q ex conv (mapply (transpose A) (vneg (s_res s))) Hc HL Hx Ht) as (p & b' & p' & H1 & H2 & H3 & H4 & H5 & H6 & H7); eauto.
  exists (block C L x), p, b', p'. exact (conj Hd (conj H1 (conj H2 (conj H3 (conj H4 (conj H5 (conj H6 H7))))))).
Qed.
Lemma dl_near cfg s s' val old : carries E fs g s val old -> 0 < s_extra s -> (forall gn, damped_step E fs (1 / 100000) val old gn -> size fs gn <= s_extra s) -> dl_step E cfg cholmod_solve g s = Ok s' ->
  exists xi p b' p', damped_step E fs (1 / 100000) val old xi /\ moved E fs val xi p /\
    decided E fs (dl_quality_min cfg) val old xi p (fun q _ => if Rlt_dec q (1 / 4) then s_extra s / 2 else if Rlt_dec (3 / 4) q then Rmax (s_extra s) (3 * size fs xi) else s_extra s) b' /\
    carries E fs g s' (b_val b') (b_old b') /\ s_extra s' = b_extra b' /\ s_iter s' = S (s_iter s) /\ moved E fs val xi p' /\ (s_done s' = true -> tests (dl_term cfg) s val xi p').
Proof.
  intros Hc Hl Hin H. destruct (linearise E fs g WP Eg s val old Hc) as (A & HL). destruct (dl_tr E cfg _ g s s' H) as (A0 & ATb & gn & Asd & x & prop & c & r & q & Ht & Eb & Egn & EAs & Ex & Ee & conv & Hconv & Hdone).
  destruct (trust_system E fs g _ _ _ _ _ _ _ _ _ _ _ _ _ HL Ht Eb) as (-> & EATb). rewrite EATb in Egn. change n0 with 0 in Egn.
  destruct (solved_damped E fs g s val old A HL 0 (s_iter s) gn) as (Hgn & _ & Hd); auto; [lra|]. rewrite Rplus_0_l in Hd.
  pose proof (Hin _ Hd) as Hs. rewrite (extent_block E fs gn Hgn) in Hs.
  assert (x = gn). { rewrite Ex. unfold dogleg_step_of. rn. rewrite (proj2 (Rleb_ok _ _) Hs). reflexivity. } clear Ex. subst x.
  set (ex := fun (q : R) (_ : bool) => if Rlt_dec q (1 / 4) then s_extra s / 2 else if Rlt_dec (3 / 4) q then Rmax (s_extra s) (3 * size fs (block C L gn)) else s_extra s).
  destruct (trust_near (dl_term cfg) (dl_quality_min cfg) s s' val old A gn prop c r q ex conv ATb Hc HL Hgn Ht) as (p & b' & p' & H1 & H2 & H3 & H4 & H5 & H6 & H7); eauto.
  - rewrite Ee. unfold dogleg_radius, ex. rn. unfold C, L. rewrite extent_block by auto. unfold Rlit. replace (IZR 1 / IZR 4) with (1 / 4) by lra. replace (IZR 3 / IZR 4) with (3 / 4) by lra.
    destruct (Rlt_dec q (1 / 4)) as [Hq|Hq]; [rewrite (proj2 (Rltb_ok _ _) Hq); lra|]. assert (Rltb q (1 / 4) = false) as -> by (apply Rltb_no; lra).
    destruct (Rlt_dec (3 / 4) q) as [Hq'|Hq']; [rewrite (proj2 (Rltb_ok _ _) Hq'); f_equal; lra|]. assert (Rltb (3 / 4) q = false) as -> by (apply Rltb_no; lra). auto.
  - exists (block C L gn), p, b', p'. exact (conj Hd (conj H1 (conj H2 (conj H3 (conj H4 (conj H5 (conj H6 H7))))))).
Qed.

Lemma carries_agree s val old : (forall v, In v (mentioned fs) -> old v = val v) -> carries E fs g s val old -> carries E fs g s val val.
Proof.
  intros Ho (H1 & H2 & H3 & b & c & (vs & W & I & G) & B2 & B3). split; auto. split; auto. split; auto. exists b, c. split; auto. exists vs. split; auto. split; auto. intros v Hv. rewrite G by auto. rewrite Ho; auto. apply I; auto.
Qed.

(* what the tests say about the distance to z *)
Lemma constants : rigid groups fs z -> forall b0 b1 qmin, 0 < b0 -> b0 <= b1 -> qmin < 1 -> exists q rho D delta, 0 <= q < 1 /\ 0 < rho /\ 0 <= D /\ 0 < delta /\
  (forall beta b e xi p, 0 < beta -> (size fs e = 0 \/ b0 <= beta <= b1) ->
     tangent E fs e -> size fs e <= rho -> moved E fs z e (b_val b) -> (forall v, In v (mentioned fs) -> b_old b v = b_val b v) ->
     damped_step E fs beta (b_val b) (b_old b) xi -> moved E fs (b_val b) xi p ->
     size fs xi <= 3 * size fs e /\ (size fs e = 0 -> forall v, In v (mentioned fs) -> p v = b_val b v) /\ (0 < size fs e -> qmin <= quality E fs (b_val b) (b_old b) xi p) /\
     exists e', tangent E fs e' /\ moved E fs z e' p /\ size fs e' <= q * size fs e) /\
  (forall cfg s val old beta e e' xi p, size fs e = 0 \/ b0 <= beta <= b1 -> carries E fs g s val old -> tangent E fs e -> size fs e <= rho -> moved E fs z e val -> (forall v, In v (mentioned fs) -> old v = val v) ->
     damped_step E fs beta val old xi -> moved E fs val xi p -> cost_tolerance cfg <= delta -> 0 <= parameter_tolerance cfg -> size fs e' <= size fs e -> tests cfg s val xi p ->
     halted cfg D (S (s_iter s)) (size fs e')).
Proof.
  intros HR b0 b1 qmin Hb0 Hb1 Hq. destruct (tried groups fs z SB HR b0 b1 qmin Hb0 Hb1 Hq) as (q & rho1 & Hq1 & Hr1 & HT). destruct (step_size groups fs z SB HR b0 b1 Hb0 Hb1) as (rho2 & h & delta & Hr2 & Hh & Hd & HS).
  pose proof WP as [CO _ _ _ _]. destruct (storage_bounded groups fs z SB CO) as (M & d & HSp & Hdp & HB).
  destruct (min4 rho1 rho2 d 1 Hr1 Hr2 Hdp ltac:(lra)) as (rho & Hrho & M1 & M2 & M3 & _). exists q, rho, ((M + 1) / h), delta. split; auto. split; auto.
  assert (HD : 0 <= (M + 1) / h) by (apply Rlt_le, Rdiv_lt_0_compat; lra). split; auto. split; auto. split; [intros beta b e xi p H1 H2 H3 H4; apply (HT beta b e xi p); auto; lra|].
  intros cfg s val old beta e e' xi p Hb (Ha & Hl & _) Te Hs Hm Ho Hst Hp Hct Hpt He' Htests. unfold halted. cbv zeta. set (t := parameter_tolerance cfg) in *. pose proof (size_pos fs e) as Pe. pose proof (size_pos fs e') as Pe'.
  assert (Pt : 0 <= t * (1 + t)) by (apply Rmult_le_pos; lra).
  destruct (Rle_lt_or_eq_dec 0 _ Pe) as [Hpos|Hz]; [|right; right; apply Rle_trans with 0; [lra | apply Rmult_le_pos; auto]]. destruct Hb as [Hb|Hb]; [lra|].
  apply damped_old with (old' := val) in Hst; auto. destruct (HS beta val e xi p Hb Te ltac:(lra) Hm Hst Hp) as (I1 & I2 & I3). fold E in I2, I3.
  destruct Htests as [Ht|[Ht|[Ht|Ht]]]; [left; lia | right; left; lia | exfalso | right; right].
  - assert (Hd1 : 0 <= delta * cost_at E fs val) by (apply Rmult_le_pos; lra). rewrite Rabs_left1 in Ht by lra. apply (Rmult_lt_compat_r (cost_at E fs val)) in Ht; [|auto].
    replace (- (cost_at E fs p - cost_at E fs val) / cost_at E fs val * cost_at E fs val) with (cost_at E fs val - cost_at E fs p) in Ht by (field; lra). pose proof (Rmult_le_compat_r _ _ _ (Rlt_le _ _ I2) Hct). lra.
  - pose proof (HB (s_assign s) val e Hm ltac:(lra) (lin_holds E fs g WP Eg _ _ Ha Hl)) as HB'. fold t in Ht. apply Rle_trans with (size fs e); auto.
    assert (Hx : h * size fs e <= (M + t) * t) by (apply Rle_trans with (size fs xi); auto; apply Rlt_le; eapply Rlt_le_trans; [exact Ht|]; apply Rmult_le_compat_r; lra).
    apply (Rmult_le_reg_l h); auto. replace (h * ((M + 1) / h * (t * (1 + t)))) with ((M + 1) * (t * (1 + t))) by (field; lra). eapply Rle_trans; [exact Hx|]. nra.
Qed.

(* from iterations to solves; ex is lambda or the radius, or 1 for Gauss-Newton *)
Section Solve.
Variables (cfg : term_cfg R) (step : graph R -> sstate R -> result (sstate R)) (extra : R) (solve : nat -> graph R -> assign R -> option (result (assign R))).
Hypothesis Hsol : nonlinear_solver E cholmod_solve step extra solve.
Hypothesis Hcap : forall fuel init, (iteration_cap (max_iterations cfg) <= fuel)%nat -> exists r, solve fuel g init = Some r /\ solve_outcome E step extra 1 (iteration_cap (max_iterations cfg)) g init r.
Variables (rho q D : R) (ex : sstate R -> R) (good : R -> Prop).
Hypothesis Hq : 0 <= q < 1.
Hypothesis Hex : forall s, s_extra s = extra -> 0 < ex s /\ good (ex s).
Hypothesis Hone : forall s s' val old e, carries E fs g s val old -> state groups fs z rho good (mkBook val old (ex s)) e -> step g s = Ok s' ->
  exists val' old' e', carries E fs g s' val' old' /\ state groups fs z rho good (mkBook val' old' (ex s')) e' /\ size fs e' <= q * size fs e /\ s_iter s' = S (s_iter s) /\
    (s_done s' = true -> halted cfg D (s_iter s') (size fs e')).

Lemma go_on fuel init val e : (iteration_cap (max_iterations cfg) <= fuel)%nat -> assigns E fs init val -> tangent E fs e -> moved E fs z e val -> size fs e <= rho ->
  exists a' val' e' k, solve fuel g init = Some (Ok a') /\ assigns E fs a' val' /\ (1 <= k <= iteration_cap (max_iterations cfg))%nat /\
    tangent E fs e' /\ moved E fs z e' val' /\ size fs e' <= q ^ k * size fs e /\ halted cfg D k (size fs e').
Proof.
  intros Hf Hi Te Hm Hs. destruct (Hcap fuel init Hf) as (r & Er & Ho). pose proof WP as [CO Hok Hws _ _]. destruct (made E fs g Hok Eg) as (Hg & _).
  destruct (never_raises E fs WP) as (g' & Eg' & Hnr). assert (g' = g) by congruence. subst g'. destruct (Hnr cholmod_solve step extra solve cholmod_total Hsol init val Hi) as (Hne' & _).
  destruct (update_holds E CO fs init val Hi) as (a & Eu & Ha). unfold solve_outcome in Ho. rewrite (ig_layout _ _ _ Hg), Eu in Ho.
  destruct Ho as [(er & H & _)|(a1 & H & Ho)]; [discriminate|]. injection H as <-.
  destruct Ho as [(er & _ & H)|(c & res & run & Ec & Hrun & Hr)]; [exfalso; subst r; eapply Hne'; eauto|].
  destruct Hrun as [(k & st & Hk & Hruns & Hdn & ->)|(k & st & er & _ & _ & _ & _ & ->)]; [|exfalso; cbn in Hr; subst r; eapply Hne'; eauto].
  cbn [bind] in Hr. set (s0 := mkState 0 a c res false extra) in *.
  assert (Hc0 : carries E fs g s0 val val) by (apply (holds_carries E fs g WP Eg s0 val c); auto).
  set (inv := fun s => exists val' old' e', carries E fs g s val' old' /\ state groups fs z rho good (mkBook val' old' (ex s)) e' /\ size fs e' <= q ^ s_iter s * size fs e /\ (s_done s = true -> halted cfg D (s_iter s) (size fs e'))).
  destruct (run_inv (step g) inv (fun _ => True)) with (k := k) (s := s0) (s' := st) as ((val' & old' & e' & I1 & [I2 _ I3 _ _ _] & I4 & I5) & J & _); auto.
  - intros s s' (v1 & o1 & e1 & H1 & H2 & H3 & H4) Hst. destruct (Hone s s' v1 o1 e1 H1 H2 Hst) as (v2 & o2 & e2 & G1 & G2 & G3 & G4 & G5). split; [|auto].
    exists v2, o2, e2. split; auto. split; auto. split; auto. rewrite G4. cbn [pow]. eapply Rle_trans; [exact G3|]. rewrite Rmult_assoc. apply Rmult_le_compat_l; [lra | auto].
  - exists val, val, e. split; auto. destruct (Hex s0 eq_refl) as (X1 & X2). split; [split; auto|]. split; [cbn; lra | discriminate].
  - cbn [s_iter s0] in J. rewrite Nat.add_0_l in J. rewrite J in *. destruct I1 as (Ia & Ib & _). pose proof (lin_holds E fs g WP Eg _ _ Ia Ib) as Hh.
    destruct (update_back E CO fs (s_assign st) val' init val Hh Hi) as (a' & Eb & Ha'). exists a', val', e', k. split; [congruence|]. auto 10.
Qed.
End Solve.

Lemma gn_pose : rigid groups fs z -> exists q rho D delta, 0 <= q < 1 /\ 0 < rho /\ 0 <= D /\ 0 < delta /\ forall cfg, pose_stops E fs z rho q D delta cfg (fun fuel => gn_solve E fuel cfg cholmod_solve g).
Proof.
  intros HR. destruct (constants HR (1 / 100000) (1 / 100000) 0 ltac:(lra) ltac:(lra) ltac:(lra)) as (q & rho & D & delta & Hq & Hrho & HD & Hdelta & HT & HS). exists q, rho, D, delta. do 4 (split; auto).
  intros cfg Hct Hpt fuel init val e Hf Hi Te Hm Hs.
  apply (go_on cfg (fun g => gn_step E cfg cholmod_solve g) 0 (fun fuel => gn_solve E fuel cfg cholmod_solve) (solver_gn E cholmod_solve cfg)) with (rho := rho) (val := val) (ex := fun _ => 1) (good := fun _ => True); auto.
  - intros fuel' init' Hf'. destruct (solvers_terminate E g init' cholmod_solve fuel') as (Hx & _). auto.
  - intros s _. split; [lra | auto].
  - intros s s' v o e1 Hc0 [S1 S2 S3 S4 _ _] Hst. cbn [b_val b_old b_extra] in *. apply carries_agree in Hc0; auto. destruct (gn_near cfg s s' v Hc0 Hst) as (xi & p & N1 & N2 & N3 & N4 & N5).
    destruct (HT (1 / 100000) (mkBook v v 1) e1 xi p ltac:(lra) ltac:(right; lra) S1 S2 S3 ltac:(auto) N1 N2) as (_ & _ & _ & e' & T' & V' & B'). pose proof (size_pos fs e1) as Pe. assert (B1 : size fs e' <= size fs e1) by nra.
    exists p, p, e'. split; auto. split; [split; cbn [b_val b_old b_extra]; auto; lra|]. split; auto. split; auto. intros Hdn. rewrite N4. apply (HS cfg s v v (1 / 100000) e1 e' xi p); auto. right; lra.
Qed.

Lemma lm_pose : rigid groups fs z -> forall qmin lambda, qmin < 1 -> 0 < lambda -> exists q rho D delta, 0 <= q < 1 /\ 0 < rho /\ 0 <= D /\ 0 < delta /\
  forall cfg, lm_quality_min cfg <= qmin -> 1 <= lambda_factor cfg -> 0 < lambda_min cfg -> 0 < lambda_initial cfg <= lambda -> pose_stops E fs z rho q D delta (lm_term cfg) (fun fuel => lm_solve E fuel cfg cholmod_solve g).
Proof.
  intros HR qmin lambda Hqm Hla. destruct (constants HR (1 / 100000) (lambda + 1 / 100000) qmin ltac:(lra) ltac:(lra) Hqm) as (q & rho & D & delta & Hq & Hrho & HD & Hdelta & HT & HS). exists q, rho, D, delta. do 4 (split; auto).
  intros cfg C1 C2 C3 C4 Hct Hpt fuel init val e Hf Hi Te Hm Hs. set (good := fun l => l <= lambda).
  apply (go_on (lm_term cfg) (fun g => lm_step E cfg cholmod_solve g) (lambda_initial cfg) (fun fuel => lm_solve E fuel cfg cholmod_solve) (solver_lm E cholmod_solve cfg)) with (rho := rho) (val := val) (ex := s_extra) (good := good); auto.
  - intros fuel' init' Hf'. destruct (solvers_terminate E g init' cholmod_solve fuel') as (_ & Hx & _). auto.
  - intros s Hse. rewrite Hse. unfold good. split; lra.
  - intros s s' v o e1 Hc0 [S1 S2 S3 S4 S5 S6] Hst. cbn [b_val b_old b_extra] in *. destruct (lm_near cfg s s' v o Hc0 S5 Hst) as (xi & p & b' & p' & N1 & N2 & N3 & N4 & N5 & N6 & N7 & N8). rewrite N5.
    assert (Hb : size fs e1 = 0 \/ 1 / 100000 <= s_extra s + 1 / 100000 <= lambda + 1 / 100000) by (destruct S6 as [|S6]; [left; auto | right; unfold good in S6; lra]).
    destruct (HT (s_extra s + 1 / 100000) (mkBook v o (s_extra s)) e1 xi p ltac:(lra) Hb S1 S2 S3 S4 N1 N2) as (_ & HZ & HQ & e' & T' & V' & B'). cbn [b_val b_old b_extra] in *. pose proof (size_pos fs e1) as Pe. pose proof (size_pos fs e') as Pe'. assert (B1 : size fs e' <= size fs e1) by nra.
    assert (HX : forall e2, size fs e2 <= size fs e1 -> s_done s' = true -> halted (lm_term cfg) D (s_iter s') (size fs e2)) by (intros e2 B2 Hdn; rewrite N6; apply (HS (lm_term cfg) s v o (s_extra s + 1 / 100000) e1 e2 xi p'); auto).
    destruct N3 as [(Ha & ->)|(Hr & ->)]; cbn [b_val b_old b_extra] in *.
    + exists p, p, e'. split; auto. split; [split; cbn [b_val b_old b_extra]; auto; [lra | apply Rdiv_lt_0_compat; lra|]|split; auto].
      destruct S6 as [S6|S6]; [left; lra|right]. unfold good in *. apply Rle_trans with (s_extra s); auto. apply (Rmult_le_reg_r (lambda_factor cfg)); [lra|]. unfold Rdiv. rewrite Rmult_assoc, Rinv_l, Rmult_1_r by lra. nra.
    + destruct (Rle_lt_or_eq_dec 0 _ Pe) as [Hpos|Hz]; [specialize (HQ Hpos); lra|]. exists v, p, e1. split; auto. split; [split; cbn [b_val b_old b_extra]; auto; eapply Rlt_le_trans; [exact C3 | apply Rmax_l]|]. split; [rewrite <- Hz; lra | split; auto]. intros Hdn. apply HX; auto. lra.
Qed.

Lemma dl_pose : rigid groups fs z -> forall qmin radius, qmin < 1 -> 0 < radius -> exists q rho D delta, 0 <= q < 1 /\ 0 < rho /\ 0 <= D /\ 0 < delta /\
  forall cfg, dl_quality_min cfg <= qmin -> radius <= radius_initial cfg -> pose_stops E fs z rho q D delta (dl_term cfg) (fun fuel => dl_solve E fuel cfg cholmod_solve g).
Proof.
  intros HR qmin radius Hqm Hra. assert (Hq' : Rmax qmin (1 / 4) < 1) by (apply Rmax_lub_lt; lra). pose proof (Rmax_l qmin (1 / 4)) as X1. pose proof (Rmax_r qmin (1 / 4)) as X2.
  destruct (constants HR (1 / 100000) (1 / 100000) (Rmax qmin (1 / 4)) ltac:(lra) ltac:(lra) Hq') as (q & rho0 & D & delta & Hq & Hrho0 & HD & Hdelta & HT & HS).
  set (rho := Rmin rho0 (radius / 3)). assert (Hrho : 0 < rho) by (apply Rmin_pos; lra). assert (M1 : rho <= rho0) by apply Rmin_l. assert (M2 : rho <= radius / 3) by apply Rmin_r. clearbody rho.
  exists q, rho, D, delta. do 4 (split; auto).
  intros cfg C1 C2 Hct Hpt fuel init val e Hf Hi Te Hm Hs. set (good := fun l => radius <= l).
  apply (go_on (dl_term cfg) (fun g => dl_step E cfg cholmod_solve g) (radius_initial cfg) (fun fuel => dl_solve E fuel cfg cholmod_solve) (solver_dl E cholmod_solve cfg)) with (rho := rho) (val := val) (ex := s_extra) (good := good); auto.
  - intros fuel' init' Hf'. destruct (solvers_terminate E g init' cholmod_solve fuel') as (_ & _ & Hx). auto.
  - intros s Hse. rewrite Hse. unfold good. split; lra.
  - intros s s' v o e1 Hc0 [S1 S2 S3 S4 S5 S6] Hst. cbn [b_val b_old b_extra] in *. pose proof (size_pos fs e1) as Pe. assert (Hb : size fs e1 = 0 \/ 1 / 100000 <= 1 / 100000 <= 1 / 100000) by (right; lra).
    assert (Hin : forall gn, damped_step E fs (1 / 100000) v o gn -> size fs gn <= s_extra s).
    { intros gn Hd. assert (Hmv : exists p', moved E fs v gn p') by (eexists (fun v => _); intros w Hw; reflexivity). destruct Hmv as (p1 & Hp1).
      destruct (HT (1 / 100000) (mkBook v o (s_extra s)) e1 gn p1 ltac:(lra) Hb S1 ltac:(lra) S3 S4 Hd Hp1) as (Sg & _). destruct S6 as [S6|S6]; [lra | unfold good in S6; lra]. }
    destruct (dl_near cfg s s' v o Hc0 S5 Hin Hst) as (xi & p & b' & p' & N1 & N2 & N3 & N4 & N5 & N6 & N7 & N8). rewrite N5.
    destruct (HT (1 / 100000) (mkBook v o (s_extra s)) e1 xi p ltac:(lra) Hb S1 ltac:(lra) S3 S4 N1 N2) as (_ & HZ & HQ & e' & T' & V' & B'). cbn [b_val b_old b_extra] in *. pose proof (size_pos fs e') as Pe'. assert (B1 : size fs e' <= size fs e1) by nra.
    assert (HX : forall e2, size fs e2 <= size fs e1 -> s_done s' = true -> halted (dl_term cfg) D (s_iter s') (size fs e2)) by (intros e2 B2 Hdn; rewrite N6; apply (HS (dl_term cfg) s v o (1 / 100000) e1 e2 xi p'); auto; lra).
    unfold decided in N3. set (Q := quality E fs v o xi p) in *. set (nx := if Rlt_dec Q (1 / 4) then _ else _) in N3.
    assert (Pex : 0 < nx). { unfold nx. destruct (Rlt_dec Q (1 / 4)); [lra|]. destruct (Rlt_dec (3 / 4) Q); auto. eapply Rlt_le_trans; [exact S5 | apply Rmax_l]. }
    assert (Gex : 0 < size fs e1 -> s_extra s <= nx). { intros Hpos. specialize (HQ Hpos). unfold nx. destruct (Rlt_dec Q (1 / 4)); [lra|]. destruct (Rlt_dec (3 / 4) Q); [apply Rmax_l | apply Rle_refl]. }
    cbv zeta in N3. fold nx in N3. destruct N3 as [(Ha & ->)|(Hr & ->)]; cbn [b_val b_old b_extra] in *.
    + exists p, p, e'. split; auto. split; [split; cbn [b_val b_old b_extra]; auto; [lra|]|split; auto].
      destruct (Rle_lt_or_eq_dec 0 _ Pe) as [Hpos|Hz]; [|left; lra]. destruct S6 as [S6|S6]; [lra|]. right. specialize (Gex Hpos). unfold good in *. lra.
    + destruct (Rle_lt_or_eq_dec 0 _ Pe) as [Hpos|Hz]; [specialize (HQ Hpos); lra|]. exists v, p, e1. split; auto. split; [split; cbn [b_val b_old b_extra]; auto|]. split; [rewrite <- Hz; lra | split; auto]. intros Hdn. apply HX; auto. lra.
Qed.
End Loop.
