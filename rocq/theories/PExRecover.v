(* Bundling lemmas and concrete instances for C108. *)
From Coq Require Import List Arith Bool ZArith Lia Permutation Reals Lra Psatz.
From Verif Require Import Num NumR Py Arr MLayout MAssign MNoise MSparse MFactor MGraph MLinear MSolver SpecLayout SpecTree SpecAssign SpecGraph SpecSparse SpecSolver SpecOrder SpecInv SpecDescent SpecRecover.
From Verif Require Import PBase PLayout PTree PAssign PAssign2 PGraph PGraph2 PGraph4 PVec PSparse PSolver PSolver2 PSolverR PHold PInv POrder3 PDescent PExGraph Ex ExG ExS PExSolver PExOrder PExPart PExDescent PRecover PRecover2.
Import ListNotations.
Local Open Scope R_scope.

(* ---- a residual that is 1 + x + M x^2 from -1 on, and constant below ---- *)
Definition hr (M x : R) : R := if Rleb (-1) x then 1 + x + M * (x * x) else M.
Definition hj (M x : R) : R := if Rleb (-1) x then 1 + 2 * M * x else 0.
Definition cliffE : env R := mkEnv exC
  (fun fd vals => match fd_cls fd, vals with 22%nat, [x] => zipw hr (par fd) (ravel x) | _, _ => [] end)
  (fun fd vals => match fd_cls fd, vals with 22%nat, [x] => [[zipw hj (par fd) (ravel x)]] | _, _ => [] end).
Definition cliff (M : R) : list (factor R) := [mkFactor 22 [vx] (dg1 (N := NumR)) [leaf1 [M]]].
Definition gcliff (M : R) : graph R :=
  match graph_make cliffE (cliff M) with Ok g => g | Err _ => mkGraph [] (mkCoords [] []) (make_layout exC [] false) (make_layout exC [] true) 0 end.

Ltac compc := lazy -[hr hj Rlit Rplus Rmult Ropp IZR Rdiv Rminus Rmax Rmin sqrt Rabs Rleb Rltb Rinv].

Lemma cliff_cost M x : compute_cost cliffE (gcliff M) (scalars [vx] [x]) = Ok (hr M x * hr M x, [hr M x]).
Proof. compc. do 2 f_equal; [|f_equal]; ring. Qed.
Lemma cliff_jac M x r : compute_whitened_residual_jacobian cliffE (gcliff M) (scalars [vx] [x]) [r] = Ok (mkCoo [hj M x] (mkCoords [0%nat] [0%nat]) (1%nat, 1%nat)).
Proof. compc. do 3 f_equal. ring. Qed.
Lemma cliff_retract M x d : manifold_retract (e_cls cliffE) (scalars [vx] [x]) (mkAssign [d] (g_local_layout (gcliff M))) = Ok (scalars [vx] [x + d]).
Proof. compc. reflexivity. Qed.
Lemma cliff_solve (M x r l : R) i : 0 < l + Rlit 1 100000 ->
  cholmod_solve (mkCoo [hj M x] (mkCoords [0%nat] [0%nat]) (1%nat, 1%nat)) [- (hj M x * r)] l i = Ok [- (hj M x * r) / (hj M x * hj M x + (l + Rlit 1 100000))].
Proof.
  intros Hl. compc. do 2 f_equal. pose proof (Rle_0_sqr (hj M x)) as H. unfold Rsqr in H. field. lra.
Qed.
Lemma cliff_total M cfg i x c r b l : exists s', lm_step cliffE cfg cholmod_solve (gcliff M) (mkState i (scalars [vx] [x]) c [r] b l) = Ok s'.
Proof. destruct cfg as [[mx ct gt gs pt] l0 f mn mxl q]. eexists. compc. reflexivity. Qed.
Lemma cliff_turn M cfg i x c r b l s' : 0 < l + Rlit 1 100000 ->
  lm_step cliffE cfg cholmod_solve (gcliff M) (mkState i (scalars [vx] [x]) c [r] b l) = Ok s' ->
  let d := - (hj M x * r) / (hj M x * hj M x + (l + Rlit 1 100000)) in
  let y := hr M (x + d) in
  let q := (y * y - c) / ((hj M x * d + r) * (hj M x * d + r) - c) in
  s_res s' = [y] /\ s_iter s' = Datatypes.S i /\
  (lm_quality_min cfg <= q -> s_assign s' = scalars [vx] [x + d] /\ s_cost s' = y * y /\ s_extra s' = l / lambda_factor cfg) /\
  (q < lm_quality_min cfg -> s_assign s' = scalars [vx] [x] /\ s_cost s' = c /\ s_extra s' = Rmax (lambda_min cfg) (Rmin (l * lambda_factor cfg) (lambda_max cfg)) /\
    s_done s' = exceeded_max_iterations (lm_term cfg) (mkState i (scalars [vx] [x]) c [r] b l)).
Proof.
  intros Hl H. destruct (lm_tr cliffE _ _ _ _ _ H) as (A & ATb & step & prop & c1 & r1 & q1 & Ht & Eb & Ed & Ee & conv & _ & Edone).
  destruct Ht as [EA Hp Hcost (Ad & EAd & Eq) Hacc Hrej Hres Hit]. cbn [s_assign s_res s_cost s_extra s_iter] in *.
  rewrite cliff_jac in EA. injection EA as <-.
  assert (ATb = [- (hj M x * r)]) by (revert Eb; compc; intros Eb; injection Eb as <-; f_equal; ring). subst ATb.
  rewrite cliff_solve in Ed by auto. injection Ed as <-. set (d := - (hj M x * r) / (hj M x * hj M x + (l + Rlit 1 100000))) in *.
  rewrite cliff_retract in Hp. injection Hp as <-. rewrite cliff_cost in Hcost. injection Hcost as <- <-.
  assert (Ad = [hj M x * d]) by (revert EAd; compc; intros EAd; injection EAd as <-; f_equal; ring). subst Ad.
  cbv zeta. rnin Eq. assert (Es : sumsq (vadd [hj M x * d] [r]) = (hj M x * d + r) * (hj M x * d + r)) by (compc; ring). rewrite Es in Eq. rewrite <- Eq.
  rnin Ee. split; auto. split; auto. split.
  - intros Hle. assert (Hb := proj2 (Rleb_ok _ _) Hle). destruct (Hacc Hb) as (H1 & H2). rewrite Hb in Ee. auto.
  - intros Hlt. assert (Hb := proj2 (Rleb_no _ _) Hlt). destruct (Hrej Hb) as (H1 & H2). rewrite Hb in Ee. rnin Edone. rewrite Hb in Edone. cbn in Edone. rewrite orb_false_r in Edone. auto.
Qed.

Section Cliff.
Variable M : R.
Hypothesis HM : 2000 <= M.
Variable mx : Z.
Hypothesis Hmx : (2 <= mx)%Z.
Let cfg : lm_cfg R := lm_default mx.
Let step := lm_step cliffE cfg cholmod_solve (gcliff M).
Let s0 : sstate R := mkState 0%nat (scalars [vx] [0]) 1 [1] false (Rlit 5 10000).

Lemma hr_in x : -1 <= x -> hr M x = 1 + x + M * (x * x).
Proof. intros H. unfold hr. rewrite (proj2 (Rleb_ok _ _) H). auto. Qed.
Lemma hr_out x : x < -1 -> hr M x = M.
Proof. intros H. unfold hr. rewrite (proj2 (Rleb_no _ _) H). auto. Qed.
Lemma hj_0 : hj M 0 = 1.
Proof. unfold hj. rewrite (proj2 (Rleb_ok (-1) 0)) by lra. ring. Qed.
Lemma hj_out x : x < -1 -> hj M x = 0.
Proof. intros H. unfold hj. rewrite (proj2 (Rleb_no _ _) H). auto. Qed.

(* the first proposal, at -0.9995, is rejected *)
Lemma cliff_first s1 : step s0 = Ok s1 -> exists rho, s1 = mkState 1%nat (scalars [vx] [0]) 1 [rho] false (1/1000) /\ 99/100 * M <= rho <= M + 1.
Proof.
  intros H. assert (Hl : 0 < Rlit 5 10000 + Rlit 1 100000) by (unfold Rlit; lra).
  destruct (cliff_turn M cfg 0 0 1 1 false _ s1 Hl H) as (H1 & H2 & _ & H4). rewrite hj_0 in *.
  set (d := - (1 * 1) / (1 * 1 + (Rlit 5 10000 + Rlit 1 100000))) in *.
  assert (Hd : -9995/10000 < d < -9994/10000).
  { unfold d, Rlit. split; lra. }
  rewrite Rplus_0_l in *. rewrite hr_in in * by lra. set (y := 1 + d + M * (d * d)) in *.
  assert (Hdd : 998/1000 <= d * d <= 1) by nra.
  assert (Hy : 99/100 * M <= y <= M + 1) by (unfold y; split; nra).
  destruct H4 as (A1 & A2 & A3 & A4).
  { assert (Hden : (1 * d + 1) * (1 * d + 1) - 1 < 0) by nra. assert (0 < y * y - 1) by nra.
    assert ((y * y - 1) / ((1 * d + 1) * (1 * d + 1) - 1) < 0); [|cbn; unfold Rlit; lra].
    unfold Rdiv. pose proof (Rinv_lt_0_compat _ Hden). nra. }
  exists y. split; auto. destruct s1 as [i a c r b l]. cbn [s_res s_iter s_assign s_cost s_extra s_done] in *. subst. f_equal.
  - unfold exceeded_max_iterations. cbn. apply Z.leb_gt. lia.
  - cbn. rewrite Rmin_left by (unfold Rlit; lra). rewrite Rmax_right by (unfold Rlit; lra). unfold Rlit. lra.
Qed.

(* on the plateau *)
Definition flat (s : sstate R) : Prop := exists i x b l, s = mkState i (scalars [vx] [x]) (M * M) [M] b l /\ x < -1 /\ 0 < l.

(* the second one is accepted, though it lies on the plateau *)
Lemma cliff_second rho s2 : 99/100 * M <= rho <= M + 1 -> step (mkState 1%nat (scalars [vx] [0]) 1 [rho] false (1/1000)) = Ok s2 -> flat s2.
Proof.
  intros Hr H. assert (Hl : 0 < 1/1000 + Rlit 1 100000) by (unfold Rlit; lra).
  destruct (cliff_turn M cfg _ _ _ _ _ _ s2 Hl H) as (H1 & H2 & H3 & _). rewrite hj_0 in *.
  set (d := - (1 * rho) / (1 * 1 + (1/1000 + Rlit 1 100000))) in *.
  assert (Hd : d = - rho * (100000/100101)) by (unfold d, Rlit; lra). rewrite Rplus_0_l in *. rewrite hr_out in * by lra.
  destruct H3 as (A1 & A2 & A3).
  { assert (Hw : 1 * d + rho = rho * (101/100101)) by (rewrite Hd; lra). rewrite Hw. set (w := rho * (101/100101)).
    assert (Hw1 : 19/10 <= w) by (unfold w; lra). assert (Hw2 : w <= M) by (unfold w; lra).
    assert (Hden : 0 < w * w - 1) by nra. assert (w * w <= M * M) by nra. cbn. apply (Rmult_le_reg_r (w * w - 1)); auto.
    replace ((M * M - 1) / (w * w - 1) * (w * w - 1)) with (M * M - 1) by (field; lra). unfold Rlit. lra. }
  destruct s2 as [i a c r b l]. cbn [s_res s_iter s_assign s_cost s_extra s_done] in *. subst. do 4 eexists. split; [reflexivity|]. split; [lra|]. cbn. unfold Rlit. lra.
Qed.
Lemma cliff_flat s s' : flat s -> step s = Ok s' -> flat s'.
Proof.
  intros (i & x & b & l & -> & Hx & Hl) H. assert (Hl2 : 0 < l + Rlit 1 100000) by (unfold Rlit; lra).
  destruct (cliff_turn M cfg _ _ _ _ _ _ s' Hl2 H) as (H1 & H2 & _ & H3). rewrite (hj_out x Hx) in *.
  assert (Ed : - (0 * M) / (0 * 0 + (l + Rlit 1 100000)) = 0) by (field; lra). rewrite Ed in *. rewrite Rplus_0_r in *. rewrite hr_out in * by auto.
  destruct H3 as (A1 & A2 & A3 & _). { replace (M * M - M * M) with 0 by ring. unfold Rdiv. rewrite Rmult_0_l. cbn. unfold Rlit. lra. }
  destruct s' as [i' a' c' r' b' l']. cbn [s_res s_iter s_assign s_cost s_extra s_done] in *. subst. do 4 eexists. split; [reflexivity|]. split; auto.
  eapply Rlt_le_trans; [|apply Rmax_l]. cbn. unfold Rlit. lra.
Qed.
Lemma flat_total s : flat s -> exists s', step s = Ok s'.
Proof. intros (i & x & b & l & -> & _). apply cliff_total. Qed.
Lemma flat_runs k s s' : flat s -> runs step k s s' -> flat s'.
Proof. intros Hf H. revert Hf. induction H; intros Hf; auto. apply IHruns. eapply cliff_flat; eauto. Qed.

Lemma cliff_result fuel : (iteration_cap mx <= fuel)%nat -> exists x, x < -1 /\
  lm_solve cliffE fuel cfg cholmod_solve (gcliff M) (scalars [vx] [0]) = Some (Ok (scalars [vx] [x])).
Proof.
  intros Hfuel. destruct (solvers_terminate cliffE (gcliff M) (scalars [vx] [0]) cholmod_solve fuel) as (_ & Hlm & _).
  destruct (Hlm cfg Hfuel) as (r & Er & Hr). clear Hlm. rewrite Er.
  assert (Eu : forall x, update_storage_layout (e_cls cliffE) (scalars [vx] [x]) (g_layout (gcliff M)) = Ok (scalars [vx] [x])) by (intros; compc; reflexivity).
  assert (Ev : forall x y, update_storage_layout (e_cls cliffE) (scalars [vx] [x]) (as_layout (scalars [vx] [y])) = Ok (scalars [vx] [x])) by (intros; compc; reflexivity).
  destruct Hr as [(e & H1 & _)|(a & Ha & Hr)]; [rewrite Eu in H1; discriminate|]. rewrite Eu in Ha. injection Ha as <-.
  assert (Ec : compute_cost cliffE (gcliff M) (scalars [vx] [0]) = Ok (1, [1])) by (rewrite cliff_cost, hr_in by lra; do 2 f_equal; [|f_equal]; ring).
  destruct Hr as [(e & H1 & _)|(c & res & run & H1 & Hs & ->)]; [rewrite Ec in H1; discriminate|]. rewrite Ec in H1. injection H1 as <- <-.
  change (lambda_initial cfg) with (Rlit 5 10000) in Hs. fold step in Hs. fold s0 in Hs.
  assert (Hinv : forall k s', runs step k s0 s' -> (exists s'', step s' = Ok s'') /\ (s_done s' = true -> flat s')).
  { intros k s' Hk. inversion Hk as [|k1 x1 s1 x2 D1 T1 R1]; subst; [split; [apply cliff_total | discriminate]|].
    destruct (cliff_first s1 T1) as (rho & -> & Hrho).
    inversion R1 as [|k2 x3 s2 x4 D2 T2 R2]; subst; [split; [apply cliff_total | discriminate]|].
    pose proof (flat_runs _ _ _ (cliff_second rho s2 Hrho T2) R2) as Hf. split; auto. apply flat_total; auto. }
  destruct Hs as [(k & st & _ & Hk & Hd & ->)|(k & st & e & _ & Hk & _ & He & ->)].
  - destruct (Hinv k st Hk) as (_ & Hf). destruct (Hf Hd) as (i & x & b & l & -> & Hx & _). exists x. split; [exact Hx | reflexivity].
  - destruct (Hinv k st Hk) as ((s'' & Hs'') & _). congruence.
Qed.
End Cliff.

Lemma cliff_ok M : (forall f, In f (cliff M) -> factor_ok f) /\ well_shaped cliffE (cliff M) /\ graph_make cliffE (cliff M) = Ok (gcliff M) /\
  assigns cliffE (cliff M) (scalars [vx] [0]) (const_of 0).
Proof.
  assert (Hval : forall val, legal cliffE (cliff M) val -> exists r, val vx = leaf1 [r]).
  { intros val Hv. apply scalar_shape. apply (Hv vx). apply firsts_in. left. auto. }
  split; [|split; [split | split]].
  - intros f [<-|[]]. split; [split; [reflexivity | exists 1%nat; reflexivity] | repeat constructor].
  - intros val f Hv [<-|[]]. destruct (Hval val Hv) as (r & Er). unfold residual_shape_ok, residual_at. simpl map. rewrite Er. reflexivity.
  - intros val f Hv [<-|[]]. destruct (Hval val Hv) as (r & Er). unfold jacobian_shape_ok, jacobians_at. simpl map. rewrite Er. repeat constructor.
  - intros v x d Hv Hx Hd. assert (v = vx) by (unfold mentioned in Hv; apply (proj1 (firsts_in _ _)) in Hv; destruct Hv as [<-|[]]; auto). subst v.
    destruct (scalar_shape x Hx) as (r & ->). destruct d as [|e [|? ?]]; try discriminate Hd; eexists; (split; [reflexivity | split; repeat constructor]).
  - compc. reflexivity.
  - exists [vx]. split; [split; [repeat constructor; simpl; tauto | split; reflexivity]|]. split; [intros v; simpl; tauto|]. intros v [<-|[]]. reflexivity.
Qed.

Lemma result_worse : forall M, 2000 <= M -> exists (E : env R) fs g init val r,
  classes_ok (e_cls E) /\ (forall f, In f fs -> factor_ok f) /\ well_shaped E fs /\ graph_make E fs = Ok g /\ assigns E fs init val /\
  compute_cost E g init = Ok (1, r) /\
  forall mx fuel, (2 <= mx)%Z -> (iteration_cap mx <= fuel)%nat -> exists a' r',
    lm_solve E fuel (lm_default mx) cholmod_solve g init = Some (Ok a') /\ compute_cost E g a' = Ok (M * M, r').
Proof.
  intros M HM. destruct (cliff_ok M) as (P1 & P2 & P3 & P4). exists cliffE, (cliff M), (gcliff M), (scalars [vx] [0]), (const_of 0), [1].
  split; [exact exS_classes|]. do 4 (split; [assumption|]). split; [rewrite cliff_cost, hr_in by lra; do 2 f_equal; [|f_equal]; ring|].
  intros mx fuel Hmx Hf. destruct (cliff_result M HM mx Hmx fuel Hf) as (x & Hx & H). exists (scalars [vx] [x]), [M]. split; auto. rewrite cliff_cost, hr_out by auto. auto.
Qed.

(* ---- the residual x, at x = 1 ---- *)
Definition line : list (factor R) := [anchor vx 0].
Definition gline : graph R := graph_of line.
Definition at1 : assign R := scalars [vx] [1].
Definition unit_coo : coo R := mkCoo [1] (mkCoords [0%nat] [0%nat]) (1%nat, 1%nat).
Lemma line_ok : (forall f, In f line -> factor_ok f) /\ well_shaped exSE line /\ graph_make exSE line = Ok gline /\ total residual_dim line = 1%nat /\
  assigns exSE line at1 (const_of 1) /\ same_layout (as_layout at1) (g_layout gline).
Proof.
  assert (Hf : forall f, In f line -> exists v z, In v [vx; vy] /\ (f = square v z \/ f = anchor v z)) by (intros f [<-|[]]; exists vx, 0%Z; simpl; auto).
  split; [apply ok_two; auto|]. split; [apply shaped_two; auto|]. split; [reflexivity|]. split; [reflexivity|]. split; [|repeat split].
  exists [vx]. split; [split; [repeat constructor; simpl; tauto | split; reflexivity]|]. split; [intros v; simpl; tauto|]. intros v [<-|[]]. reflexivity.
Qed.
Lemma line_cost x : compute_cost exSE gline (scalars [vx] [x]) = Ok (x * x, [x]).
Proof. comp. do 2 f_equal; [|f_equal]; unfold Rlit; field. Qed.
Lemma line_jac x r : length r = 1%nat -> compute_whitened_residual_jacobian exSE gline (scalars [vx] [x]) r = Ok unit_coo.
Proof. destruct r as [|y [|z r]]; try discriminate. intros _. comp. do 3 f_equal. ring. Qed.
Lemma line_retract x d : manifold_retract (e_cls (exSE (N := NumR))) (scalars [vx] [x]) (mkAssign [d] (g_local_layout gline)) = Ok (scalars [vx] [x + d]).
Proof. comp. reflexivity. Qed.
Lemma line_norm : norm_le 1 unit_coo.
Proof.
  intros v y H. destruct v as [|a [|b v]]; [discriminate H | | discriminate H]. revert H. comp. intros H. injection H as <-.
  change ((0 + 1 * a) * (0 + 1 * a) + 0 <= 1 * (a * a + 0)). lra.
Qed.
Lemma line_curv : curvature_le exSE gline at1 [1] unit_coo 0.
Proof.
  intros d Ad prop c r' H1 H2 H3. destruct d as [|a [|b v]]; [discriminate H1 | | discriminate H1]. unfold at1 in H2. rewrite line_retract in H2. injection H2 as <-.
  rewrite line_cost in H3. injection H3 as _ <-.
  assert (HAd : Ad = [0 + 1 * a]) by (clear - H1; revert H1; comp; intros H1; injection H1 as <-; reflexivity). subst Ad.
  assert (Ez : sumsq (vsub [1 + a] (vadd [0 + 1 * a] [1])) = 0) by (comp; ring). rewrite Ez, sqrt_0. lra.
Qed.
Lemma line_grad : matmul (transpose unit_coo) (vneg [1]) = Ok [-1].
Proof. comp. do 2 f_equal. lra. Qed.

Lemma line_turn (cfg : lm_cfg R) i c r b l : 0 < l + Rlit 1 100000 ->
  exists s', lm_step exSE cfg cholmod_solve gline (mkState i at1 c [r] b l) = Ok s' /\
  let d := - r / (1 + (l + Rlit 1 100000)) in let y := 1 + d in
  let q := (y * y - c) / ((d + r) * (d + r) - c) in
  s_res s' = [y] /\
  (q < lm_quality_min cfg -> stays (mkState i at1 c [r] b l) s' /\ s_extra s' = Rmax (lambda_min cfg) (Rmin (l * lambda_factor cfg) (lambda_max cfg))).
Proof.
  intros Hl. assert (Hx : exists s', lm_step exSE cfg cholmod_solve gline (mkState i at1 c [r] b l) = Ok s').
  { destruct cfg as [[mx ct gt gs pt] l0 f mn mxl q]. eexists. comp. reflexivity. }
  destruct Hx as (s' & H). exists s'. split; auto.
  destruct (lm_tr exSE _ _ _ _ _ H) as (A & ATb & step & prop & c1 & r1 & q1 & Ht & Eb & Ed & Ee & _).
  destruct Ht as [EA Hp Hcost (Ad & EAd & Eq) Hacc Hrej Hres Hit]. cbn [s_assign s_res s_cost s_extra s_iter] in *.
  unfold at1 in EA. rewrite line_jac in EA by reflexivity. injection EA as <-.
  assert (ATb = [- r]) by (revert Eb; comp; intros Eb; injection Eb as <-; f_equal; ring). subst ATb.
  assert (Es : cholmod_solve unit_coo [- r] l i = Ok [- r / (1 + (l + Rlit 1 100000))]) by (comp; do 2 f_equal; field; lra).
  rewrite Es in Ed. injection Ed as <-. set (d := - r / (1 + (l + Rlit 1 100000))) in *.
  unfold at1 in Hp. rewrite line_retract in Hp. injection Hp as <-. rewrite line_cost in Hcost. injection Hcost as <- <-.
  assert (Ad = [d]) by (revert EAd; comp; intros EAd; injection EAd as <-; f_equal; ring). subst Ad.
  cbv zeta. rnin Eq. assert (Es2 : sumsq (vadd [d] [r]) = (d + r) * (d + r)) by (comp; ring). rewrite Es2 in Eq. rewrite <- Eq. rnin Ee. split; auto.
  intros Hlt. assert (Hb := proj2 (Rleb_no _ _) Hlt). destruct (Hrej Hb) as (H1 & H2). rewrite Hb in Ee. split; auto. split; auto.
Qed.

(* with a threshold of 3/4 the same proposal is rejected for ever, however large the damping *)
Definition flat_cfg (L : R) : lm_cfg R := mkLm (term_default 100) L 2 L L (3/4).
Lemma line_forever L : 1 <= L -> forall n i b, let rho := (1 + (L + Rlit 1 100000)) / (2 + (L + Rlit 1 100000)) in
  exists s', stuck 1 (lm_step exSE (flat_cfg L) cholmod_solve gline) n (mkState i at1 1 [rho] b L) s'.
Proof.
  intros HL n. set (be := L + Rlit 1 100000). assert (Hbe : 1 < be) by (unfold be, Rlit; lra). cbv zeta.
  set (rho := (1 + be) / (2 + be)). assert (Hrho : rho * (2 + be) = 1 + be) by (unfold rho; field; lra).
  induction n as [|n IH]; intros i b; [eexists; constructor|].
  destruct (line_turn (flat_cfg L) i 1 rho b L ltac:(fold be; lra)) as (s1 & H1 & H2 & H3). fold be in H2, H3.
  assert (Ed : - rho / (1 + be) = - / (2 + be)) by (unfold rho; field; lra). rewrite Ed in H2, H3.
  set (u := / (2 + be)) in *. assert (Hu : u * (2 + be) = 1) by (unfold u; field; lra). assert (Hu0 : 0 < u) by (apply Rinv_0_lt_compat; lra). assert (Hu1 : u < 1/3) by nra.
  assert (Er : rho = 1 - u) by (unfold rho, u; field; lra).
  destruct H3 as (H3 & H4).
  { rewrite Er. replace ((1 + - u) * (1 + - u) - 1) with (- (u * (2 - u))) by ring. replace ((- u + (1 - u)) * (- u + (1 - u)) - 1) with (- (4 * u * (1 - u))) by ring. cbn.
    replace (- (u * (2 - u)) / - (4 * u * (1 - u))) with ((2 - u) / (4 * (1 - u))) by (field; lra).
    apply (Rmult_lt_reg_r (4 * (1 - u))); [lra|]. replace ((2 - u) / (4 * (1 - u)) * (4 * (1 - u))) with (2 - u) by (field; lra). lra. }
  cbn in H4. rewrite Rmin_right, Rmax_left in H4 by lra.
  assert (E1 : s1 = mkState (s_iter s1) at1 1 [rho] (s_done s1) L).
  { destruct s1 as [i' a' c' r' b' l']. destruct H3 as (G1 & G2). cbn [s_res s_iter s_assign s_cost s_extra s_done] in *. subst. f_equal. f_equal. lra. }
  destruct (IH (s_iter s1) (s_done s1)) as (s2 & Hs2). rewrite <- E1 in Hs2. exists s2. econstructor; [exact H1 | exact H3 | | exact Hs2].
  cbn [s_res]. assert (Esq : sumsq [rho] = rho * rho) by (comp; ring). rewrite Esq. nra.
Qed.

(* with the default threshold two rejections in a row do occur at any damping *)
Definition wide_cfg (L : R) : lm_cfg R := mkLm (term_default 100) L 2 (Rlit 1 100000) (4 * L) (Rlit 1 1000).
Lemma line_twice L : 2 <= L -> let s0 := mkState 0%nat at1 1 [-1] false L in exists s1 s2 s3,
  lm_step exSE (wide_cfg L) cholmod_solve gline s0 = Ok s1 /\ stays s0 s1 /\ lm_step exSE (wide_cfg L) cholmod_solve gline s1 = Ok s2 /\ stays s1 s2 /\
  lm_step exSE (wide_cfg L) cholmod_solve gline s2 = Ok s3.
Proof.
  intros HL s0. set (eps := Rlit 1 100000). assert (He : 0 < eps < 1) by (unfold eps, Rlit; lra).
  destruct (line_turn (wide_cfg L) 0 1 (-1) false L ltac:(fold eps; lra)) as (s1 & H1 & H2 & H3). fold eps in H2, H3.
  set (u := / (1 + (L + eps))). assert (Hu : u * (1 + (L + eps)) = 1) by (unfold u; field; lra). assert (Hu0 : 0 < u) by (apply Rinv_0_lt_compat; lra). assert (Hu1 : u < 1/3) by nra.
  assert (Ed : - -1 / (1 + (L + eps)) = u) by (unfold u; field; lra). rewrite Ed in *.
  destruct H3 as (S1 & X1).
  { assert (Hden : (u + -1) * (u + -1) - 1 < 0) by nra. assert (0 < (1 + u) * (1 + u) - 1) by nra. pose proof (Rinv_lt_0_compat _ Hden).
    assert (((1 + u) * (1 + u) - 1) / ((u + -1) * (u + -1) - 1) < 0) by (unfold Rdiv; nra). cbn. unfold Rlit. lra. }
  cbn in X1. rewrite Rmin_left in X1 by lra. rewrite Rmax_right in X1 by (unfold eps, Rlit in *; lra).
  assert (E1 : s1 = mkState (s_iter s1) at1 1 [1 + u] (s_done s1) (L * 2)).
  { destruct s1 as [i' a' c' r' b' l']. destruct S1 as (G1 & G2). cbn [s_res s_iter s_assign s_cost s_extra s_done] in *. subst. reflexivity. }
  destruct (line_turn (wide_cfg L) (s_iter s1) 1 (1 + u) (s_done s1) (L * 2) ltac:(fold eps; lra)) as (s2 & H4 & H5 & H6). rewrite <- E1 in H4, H6. fold eps in H5, H6.
  set (v := / (1 + (L * 2 + eps))) in *. assert (Hv : v * (1 + (L * 2 + eps)) = 1) by (unfold v; field; lra). assert (Hv0 : 0 < v) by (apply Rinv_0_lt_compat; lra). assert (Hv1 : v < 1/5) by nra.
  assert (Ed2 : - (1 + u) / (1 + (L * 2 + eps)) = - ((1 + u) * v)) by (unfold v; field; lra). rewrite Ed2 in *.
  destruct H6 as (S2 & X2).
  { assert (Huv : u * v * (u * (1 + (L + eps))) = u * v) by (rewrite Hu; ring).
    assert (E3 : u - v - u * v = u * v * (L - 1)).
    { assert (A1 : u = u * (v * (1 + (L * 2 + eps)))) by (rewrite Hv; ring). assert (A2 : v = v * (u * (1 + (L + eps)))) by (rewrite Hu; ring). rewrite A1 at 1. rewrite A2 at 2. ring. }
    assert (0 < u * v) by (apply Rmult_lt_0_compat; auto). assert (0 < u * v * (L - 1)) by (apply Rmult_lt_0_compat; lra).
    assert (Hw : 1 < - ((1 + u) * v) + (1 + u)) by lra. set (w := - ((1 + u) * v) + (1 + u)) in *.
    assert (Hden : 0 < w * w - 1) by nra. assert (Hz : 0 < (1 + u) * v < 1) by nra. set (z := (1 + u) * v) in *.
    assert ((1 + - z) * (1 + - z) - 1 < 0) by nra. pose proof (Rinv_0_lt_compat _ Hden).
    assert (((1 + - z) * (1 + - z) - 1) / (w * w - 1) < 0) by (unfold Rdiv; nra). cbn. unfold Rlit. lra. }
  assert (E2 : s2 = mkState (s_iter s2) at1 1 [1 + - ((1 + u) * v)] (s_done s2) (s_extra s2)).
  { destruct s2 as [i' a' c' r' b' l']. destruct S2 as (G1 & G2). rewrite E1 in G1, G2. cbn [s_res s_iter s_assign s_cost s_extra s_done] in *. subst. reflexivity. }
  cbn in X2. rewrite Rmin_left in X2 by lra. rewrite Rmax_right in X2 by (unfold eps, Rlit in *; lra).
  destruct (line_turn (wide_cfg L) (s_iter s2) 1 (1 + - ((1 + u) * v)) (s_done s2) (s_extra s2) ltac:(fold eps; lra)) as (s3 & H7 & _). rewrite <- E2 in H7.
  exists s1, s2, s3. auto.
Qed.

Lemma line_slope : slope exSE line gline at1 1 [1] unit_coo [-1] 1 0.
Proof.
  destruct line_ok as (P1 & P2 & P3 & P4 & P5 & P6). constructor; auto; try lra; auto using exS_classes, line_norm, line_curv, line_grad.
  - rewrite P4; discriminate.
  - eauto.
  - unfold at1; rewrite line_cost; do 2 f_equal; lra.
  - intros r Hr; apply line_jac; exact Hr.
  - cbn. intros H. injection H. lra.
Qed.

Lemma recovered : forall E fs g a c0 r0 A ng F K f q B, slope E fs g a c0 r0 A ng F K -> 1 <= f -> 0 < q -> q * (1 + f) < 1 -> 0 <= B ->
  exists L, forall cfg s0 s1 s2 s3, lambda_factor cfg = f -> lm_quality_min cfg = q -> lambda_min cfg <= s_extra s0 -> L <= s_extra s0 -> L <= lambda_max cfg ->
  s_assign s0 = a -> s_cost s0 = c0 -> length (s_res s0) = length r0 -> sumsq (s_res s0) <= B ->
  lm_step E cfg cholmod_solve g s0 = Ok s1 -> stays s0 s1 -> lm_step E cfg cholmod_solve g s1 = Ok s2 -> stays s1 s2 ->
  lm_step E cfg cholmod_solve g s2 = Ok s3 -> s_cost s3 < c0 /\ current E g s3.
Proof.
  intros E fs g a c0 r0 A ng F K f q B [H1 H2 H3 H4 H5 (val & H6) H7 H8 H9 H10 H11 H12 H13 H14 H15] Hf Hq Hqf HB.
  destruct (recovers E fs g H1 H2 H3 H4 H5 a val H6 H7 c0 r0 A ng F K H8 H9 H10 H11 H13 H12 H14 H15 f q B Hf Hq Hqf HB) as (L & _ & HL).
  exists L. intros. eapply HL; eauto.
Qed.
Lemma never_long : forall E fs g a c0 r0 A ng F K f q B lmin, slope E fs g a c0 r0 A ng F K -> 1 < f -> 0 < q -> q * (1 + f) < 1 -> 0 <= B -> 0 < lmin ->
  exists L n, forall cfg s s', lambda_factor cfg = f -> lm_quality_min cfg = q -> lmin <= lambda_min cfg -> L <= lambda_max cfg ->
  s_assign s = a -> s_cost s = c0 -> length (s_res s) = length r0 -> 0 < s_extra s -> ~ stuck B (lm_step E cfg cholmod_solve g) n s s'.
Proof.
  intros E fs g a c0 r0 A ng F K f q B lmin [H1 H2 H3 H4 H5 (val & H6) H7 H8 H9 H10 H11 H12 H13 H14 H15] Hf Hq Hqf HB Hl.
  apply (never_stuck E fs g H1 H2 H3 H4 H5 a val H6 H7 c0 r0 A ng F K H8 H9 H10 H11 H13 H12 H14 H15 f q B); auto; lra.
Qed.

Lemma ex_recovers : slope exSE line gline at1 1 [1] unit_coo [-1] 1 0 /\ Rlit 1 1000 * (1 + 2) < 1 /\
  forall L, exists cfg s0 s1 s2 s3, lambda_factor cfg = 2 /\ lm_quality_min cfg = Rlit 1 1000 /\ lambda_min cfg <= s_extra s0 /\ L <= s_extra s0 /\ L <= lambda_max cfg /\
  s_assign s0 = at1 /\ s_cost s0 = 1 /\ length (s_res s0) = length [1] /\ sumsq (s_res s0) <= 1 /\
  lm_step exSE cfg cholmod_solve gline s0 = Ok s1 /\ stays s0 s1 /\ lm_step exSE cfg cholmod_solve gline s1 = Ok s2 /\ stays s1 s2 /\ lm_step exSE cfg cholmod_solve gline s2 = Ok s3.
Proof.
  split; [exact line_slope|]. split; [unfold Rlit; lra|].
  intros L. pose proof (Rmax_l 2 L). pose proof (Rmax_r 2 L). set (X := Rmax 2 L) in *. destruct (line_twice X ltac:(auto)) as (s1 & s2 & s3 & H1 & H2 & H3 & H4 & H5).
  exists (wide_cfg X), (mkState 0%nat at1 1 [-1] false X), s1, s2, s3. split; [reflexivity|]. split; [reflexivity|].
  split; [cbn; unfold Rlit; lra|]. split; [cbn; lra|]. split; [cbn; lra|]. split; [reflexivity|]. split; [reflexivity|]. split; [reflexivity|].
  split. { assert (Esq : sumsq [-1] = 1) by (comp; lra). cbn [s_res]. rewrite Esq. lra. }
  auto.
Qed.

Lemma threshold_needed : exists E fs g a c0 r0 A ng, slope E fs g a c0 r0 A ng 1 0 /\
  forall L, 1 <= L -> exists cfg s, lambda_factor cfg = 2 /\ lm_quality_min cfg = 3/4 /\ 1 <= lambda_min cfg /\ L <= lambda_max cfg /\
    s_assign s = a /\ s_cost s = c0 /\ length (s_res s) = length r0 /\ 0 < s_extra s /\ forall n, exists s', stuck 1 (lm_step E cfg cholmod_solve g) n s s'.
Proof.
  exists exSE, line, gline, at1, 1, [1], unit_coo, [-1]. split; [exact line_slope|].
  intros L HL. exists (flat_cfg L), (mkState 0%nat at1 1 [(1 + (L + Rlit 1 100000)) / (2 + (L + Rlit 1 100000))] false L).
  split; [reflexivity|]. split; [reflexivity|]. split; [cbn; lra|]. split; [cbn; lra|]. split; [reflexivity|]. split; [reflexivity|]. split; [reflexivity|]. split; [cbn; lra|].
  intros n. apply line_forever; auto.
Qed.
